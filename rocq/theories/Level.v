(** What depends on the restriction of struct literals, up to the counts of array
    types: patterns and types read the same with and without it if these do. *)

From Coq Require Import String List Arith Bool Lia.
From Verif Require Import Base Peresil Token Schema Value Nt Grammar Points Table Static Amb Layout Sem Inv.
Import ListNotations.
Local Open Scope string_scope.
Local Open Scope list_scope.
Local Open Scope nat_scope.

(** Two outcomes that agree unless one of them is an abort. *)
Definition ag {A} (r r' : progress point A perror) : Prop :=
  match r, r' with
  | Abort _, _ | _, Abort _ => True
  | Success q v, Success q' v' => q = q' /\ v = v'
  | Failure q _, Failure q' _ => q = q'
  | _, _ => False
  end.

(** * The static check, array types granted *)
Definition granted (l : list bool) (n : nt) : bool := match n with N_typ_array => true | _ => lookup false l n end.
Definition level_bits : list bool := Eval vm_compute in
  Nat.iter 40 (fun l => map (fun n => granted l n && gsteady (granted l) (table n)) all_nts) (map (fun _ => true) all_nts).
Definition level : nt -> bool := granted level_bits.

Lemma level_ok n : level n = true -> n = N_typ_array \/ gsteady level (table n) = true.
Proof.
  assert (forallb (fun n => match n with N_typ_array => true | _ => implb (level n) (gsteady level (table n)) end) all_nts = true) as H
    by (vm_compute; reflexivity).
  rewrite forallb_forall in H. specialize (H n (all_nts_complete n)). intros K.
  destruct n; auto; right; rewrite K in H; exact H.
Qed.

Lemma level_pattern : level N_pattern = true.
Proof. vm_compute. reflexivity. Qed.

Section Level.
  Variable toks : list token.
  Notation run := (run table toks).

  (** A run tells all about the parser at this level. *)
  Lemma run_sem m x e pm p : sem toks (m_state pm) x e p
    (match snd (run m x e pm p) with Success q v => SOk q v | Failure q _ => SFail q | Abort _ => SFail p end) \/
    exists w, snd (run m x e pm p) = Abort w.
  Proof.
    destruct (snd (run m x e pm p)) as [q v|q er|w] eqn:R; [left|left|right; eauto];
      intros m' pm' Ha; (destruct (le_lt_dec m m') as [L|L];
      [pose proof (run_pure table toks m m' x e pm pm' p L (eq_sym Ha)) as H; rewrite H, R by (rewrite R; discriminate); reflexivity
      |destruct (snd (run m' x e pm' p)) as [q' v'|q' er'|w'] eqn:R'; try exact I;
       pose proof (run_pure table toks m' m x e pm' pm p ltac:(lia) Ha) as H; rewrite R, R' in H;
       specialize (H ltac:(discriminate)); try discriminate H; injection H as <- <-; reflexivity]).
  Qed.

  Lemma run_sem_ok m x e pm p pm' q v : run m x e pm p = (pm', Success q v) -> sem toks (m_state pm) x e p (SOk q v).
  Proof. intros R. destruct (run_sem m x e pm p) as [S|[w E]]; rewrite R in *; [exact S|discriminate]. Qed.

  Lemma ag_sym {A} (r r' : progress point A perror) : ag r r' -> ag r' r.
  Proof. destruct r, r'; cbn; intuition congruence. Qed.

  Lemma ag_any_abort {A} (r : progress point A perror) w : ag r (Abort w).
  Proof. destruct r; exact I. Qed.

  Lemma agrees_ag r r' s : agrees r s -> agrees r' s -> ag r r'.
  Proof. destruct r, r'; cbn; intros; try exact I; subst; try discriminate; try congruence. split; congruence. Qed.

  Lemma pure_ag m m' x e pm pm' p : m_state pm = m_state pm' -> ag (snd (run m x e pm p)) (snd (run m' x e pm' p)).
  Proof.
    intros Ha. destruct (run_sem m x e pm p) as [S|[w E]]; [|rewrite E; exact I].
    destruct (snd (run m x e pm p)) as [q v|q er|w] eqn:R; [| |exact I];
      (eapply agrees_ag; [reflexivity|apply S; auto]).
  Qed.

  (** ** Parsers that agree whatever the levels and whatever the fuel *)
  Definition pag {A} (f f' : gparser A) : Prop := forall pm pm' p, ag (snd (f pm p)) (snd (f' pm' p)).

  Ltac both f f' H pm pm' p :=
    let q := fresh "q" in let v := fresh "v" in let er := fresh "er" in let w := fresh "w" in let pm1 := fresh "pm1" in
    let q' := fresh "q'" in let v' := fresh "v'" in let er' := fresh "er'" in let w' := fresh "w'" in let pm1' := fresh "pm1'" in
    let E := fresh "E" in let E' := fresh "E'" in
    specialize (H pm pm' p); destruct (f pm p) as [pm1 [q v|q er|w]] eqn:E; destruct (f' pm' p) as [pm1' [q' v'|q' er'|w']] eqn:E';
    cbn [snd ag] in H |- *; try exact I; try contradiction; try (destruct H as [<- <-]; [idtac]); try subst q'; try solve [cbn; auto].

  Lemma pag_steps rn rn' steps b : forall e,
    (forall pt x e, In (pt, x) steps -> pag (rn x e) (rn' x e)) -> pag (run_steps toks rn steps b e) (run_steps toks rn' steps b e).
  Proof.
    induction steps as [|[pt x] steps IH]; intros e K pm pm' p; cbn [run_steps].
    - destruct (beval toks p e b); cbn; auto.
    - pose proof (K pt x e (or_introl eq_refl)) as H.
      both (rn x e) (rn' x e) H pm pm' p; try reflexivity; try (destruct (bind_pat pt _ e); exact I).
      + destruct (bind_pat pt v e) as [e'|]; [|exact I]. apply IH. intros; eapply K; right; eauto.
      + destruct (bind_pat pt v e) as [e'|]; [|exact I]. destruct (snd (run_steps _ _ _ _ _ _ _)); exact I.
  Qed.

  Lemma pag_alternate_from (fs fs' : list (gparser val)) : Forall2 pag fs fs' -> forall cur cur' pm pm' p, ag cur cur' ->
    ag (snd (alternate_from pt_lt recov cur fs pm p)) (snd (alternate_from pt_lt recov cur' fs' pm' p)).
  Proof.
    induction 1 as [|f f' fs fs' H F IH]; intros cur cur' pm pm' p C; cbn [alternate_from]; [exact C|].
    destruct cur as [q v|q er|w], cur' as [q' v'|q' er'|w']; cbn [ag] in C; try contradiction; cbn [recov snd]; try exact I; try exact C;
      try apply ag_any_abort.
    destruct (f pm p) as [pm1 r] eqn:E, (f' pm' p) as [pm1' r'] eqn:E'. apply IH.
    specialize (H pm pm' p). rewrite E, E' in H. exact H.
  Qed.

  Lemma pag_alternate (fs fs' : list (gparser val)) : Forall2 pag fs fs' -> pag (alternate pt_lt recov fs) (alternate pt_lt recov fs').
  Proof.
    intros F pm pm' p. destruct F as [|f f' fs fs' H F]; [exact I|]. cbn [alternate].
    destruct (f pm p) as [pm1 r] eqn:E, (f' pm' p) as [pm1' r'] eqn:E'. apply pag_alternate_from; [exact F|].
    specialize (H pm pm' p). rewrite E, E' in H. exact H.
  Qed.

  Lemma pag_map {A B} (f f' : gparser A) (h : A -> B) : pag f f' -> pag (map_p f h) (map_p f' h).
  Proof. intros H pm pm' p. unfold map_p. both f f' H pm pm' p; cbn; auto. Qed.

  Lemma pag_optional (f f' : gparser val) : pag f f' -> pag (optional pt_lt recov f) (optional pt_lt recov f').
  Proof. intros H pm pm' p. unfold optional. both f f' H pm pm' p; cbn; auto. Qed.

  Lemma pag_peek (f f' : gparser val) : pag f f' -> pag (peek f) (peek f').
  Proof. intros H pm pm' p. unfold peek. both f f' H pm pm' p; cbn; auto. Qed.

  Lemma pag_many (f f' : gparser val) : pag f f' -> forall n n', pag (zero_or_more pt_lt recov n f) (zero_or_more pt_lt recov n' f').
  Proof.
    intros K. induction n as [|n IH]; intros [|n'] pm pm' p; cbn [zero_or_more]; try exact I.
    - destruct (snd _); exact I.
    - pose proof K as H. both f f' H pm pm' p; auto.
      + specialize (IH n'). pose proof IH as G. both (zero_or_more pt_lt recov n f) (zero_or_more pt_lt recov n' f') G pm1 pm1' q; auto.
      + destruct (zero_or_more pt_lt recov n f pm1 q) as [pm2 [q2 l2|q2 e2|w2]]; exact I.
  Qed.

  Lemma pag_tailed (sep sep' f f' : gparser val) : pag sep sep' -> pag f f' ->
    forall n n' vs c l, pag (tailed_loop n sep f vs c l) (tailed_loop n' sep' f' vs c l).
  Proof.
    intros K1 K2. induction n as [|n IH]; intros [|n'] vs c l pm pm' p; cbn [tailed_loop]; try exact I; [apply ag_any_abort|].
    pose proof K2 as H. both f f' H pm pm' p; try apply ag_any_abort.
    pose proof K1 as G. both sep sep' G pm1 pm1' q; try apply ag_any_abort. apply IH.
  Qed.

  Lemma pag_tailed1 (sep sep' f f' : gparser val) n n' : pag sep sep' -> pag f f' -> pag (tailed1 n sep f) (tailed1 n' sep' f').
  Proof.
    intros K1 K2 pm pm' p. unfold tailed1.
    pose proof K2 as H. both f f' H pm pm' p; try apply ag_any_abort.
    pose proof K1 as G. both sep sep' G pm1 pm1' q; try apply ag_any_abort. now apply pag_tailed.
  Qed.

  Lemma pag_resume (sep sep' f f' : gparser val) n n' : pag sep sep' -> pag f f' -> pag (resume n sep f) (resume n' sep' f').
  Proof.
    intros K1 K2 pm pm' p. unfold resume.
    pose proof K1 as G. both sep sep' G pm pm' p; try apply ag_any_abort.
    pose proof (pag_tailed1 sep sep' f f' n n' K1 K2) as H. both (tailed1 n sep f) (tailed1 n' sep' f') H pm1 pm1' q; try apply ag_any_abort.
    destruct v0; cbn; auto.
  Qed.

  Lemma pag_implicit (sep sep' f f' : gparser val) : pag sep sep' -> pag f f' ->
    forall n n' vs c l, pag (implicit_loop n sep f vs c l) (implicit_loop n' sep' f' vs c l).
  Proof.
    intros K1 K2. induction n as [|n IH]; intros [|n'] vs c l pm pm' p; cbn [implicit_loop]; try exact I; [apply ag_any_abort|].
    pose proof K2 as H. both f f' H pm pm' p; try apply ag_any_abort.
    pose proof K1 as G. both sep sep' G pm1 pm1' q; try apply ag_any_abort.
    - apply IH.
    - destruct (is_implicit_separator v); [apply IH|cbn; auto].
  Qed.

  (** ** Where array types may depend on the restriction *)

  (** Behind [\[], a type and [;]. *)
  Definition count_at (p : point) : Prop :=
    exists i j x y v m pm pm', nth_error toks i = Some (Tk KLeftSquare x) /\
      run m (GNT N_typ) [] pm (at_ (i + 1)) = (pm', Success (at_ j) v) /\
      nth_error toks j = Some (Tk KSemicolon y) /\ p = at_ (j + 1).

  Hypothesis counts : forall p, count_at p -> forall m m' pm pm',
    ag (snd (run m (GNT N_expression) [] pm p)) (snd (run m' (GNT N_expression) [] pm' p)).

  Lemma pag_tok m err : pag (tok toks m err) (tok toks m err).
  Proof.
    intros pm pm' p. unfold tok. destruct (nth_error toks (off p)) as [t|]; [|reflexivity].
    destruct (match sub p with Some n => _ | None => _ end) as [u|]; [|exact I].
    destruct (convert m u); [cbn; auto|]. destruct (split t (sub_rank (sub p))) as [[x y]|]; [|reflexivity].
    destruct (convert m x); cbn; auto.
  Qed.

  Lemma gsteady_steps k steps b pt x : gsteady k (GSeq steps b) = true -> In (pt, x) steps -> gsteady k x = true.
  Proof.
    intros G J. cbn [gsteady] in G. induction steps as [|[q z] steps IHs]; [destruct J|]. apply andb_true_iff in G. destruct G as [G1 G2].
    destruct J as [J|J]; [injection J as -> ->; exact G1|auto].
  Qed.

  Lemma gsteady_alts k gs x : gsteady k (GAlt gs) = true -> In x gs -> gsteady k x = true.
  Proof.
    intros G J. cbn [gsteady] in G. induction gs as [|z gs IHs]; [destruct J|]. apply andb_true_iff in G. destruct G as [G1 G2].
    destruct J as [->|J]; [exact G1|auto].
  Qed.

  Lemma nt_env n m e : run n (GNT m) e = run n (GNT m) [].
  Proof. destruct n; reflexivity. Qed.

  Lemma pag_array n n' : (forall x e, gsteady level x = true -> pag (run n x e) (run n' x e)) ->
    pag (run (S n) (table N_typ_array) []) (run (S n') (table N_typ_array) []).
  Proof.
    intros IH pm pm' p. cbn [table Grammar.run run_steps].
    pose proof (IH GPoint [] eq_refl) as H. both (run n GPoint []) (run n' GPoint []) H pm pm' p; try apply ag_any_abort.
    cbn [bind_pat]. 
    pose proof (IH t_left_square [("spt", v)] eq_refl) as H.
    both (run n t_left_square [("spt", v)]) (run n' t_left_square [("spt", v)]) H pm1 pm1' q; try apply ag_any_abort.
    cbn [bind_pat].
    pose proof (IH (GNT N_typ) [("_", v0); ("spt", v)] eq_refl) as H.
    both (run n (GNT N_typ) [("_", v0); ("spt", v)]) (run n' (GNT N_typ) [("_", v0); ("spt", v)]) H pm0 pm1'0 q0; try apply ag_any_abort.
    cbn [bind_pat].
    pose proof (IH t_semicolon [("typ", v1); ("_", v0); ("spt", v)] eq_refl) as H.
    both (run n t_semicolon [("typ", v1); ("_", v0); ("spt", v)]) (run n' t_semicolon [("typ", v1); ("_", v0); ("spt", v)]) H pm2 pm1'1 q1; try apply ag_any_abort.
    cbn [bind_pat]. rewrite (nt_env n), (nt_env n'). rewrite nt_env in E1.
    apply tok_run, tok_solid in E0 as (i & x & -> & Ni & -> & ->); [|reflexivity].
    apply tok_run, tok_solid in E2 as (j & y & -> & Nj & -> & ->); [|reflexivity].
    assert (C : count_at (at_ (j + 1))) by (exists i, j, x, y, v1, n, pm0, pm2; auto).
    pose proof (counts (at_ (j + 1)) C n n' pm3 pm1'2) as H. clear C E E'.
    destruct (run n (GNT N_expression) [] pm3 (at_ (j + 1))) as [pm4' [r u|r er|w]] eqn:E, (run n' (GNT N_expression) [] pm1'2 (at_ (j + 1))) as [pm5' [r' u'|r' er'|w']] eqn:E';
      cbn [snd ag] in H |- *; try exact I; try contradiction; try apply ag_any_abort; try exact H. destruct H as [<- <-].
    cbn [bind_pat].
    match goal with |- context [Grammar.run table toks n ?t ?e ?pm ?p] =>
      match goal with |- context [Grammar.run table toks n' t e ?pm' p] =>
        pose proof (IH t e eq_refl) as H; both (run n t e) (run n' t e) H pm pm' p; try apply ag_any_abort end end.
    cbn [bind_pat]. match goal with |- ag (snd match ?b with _ => _ end) _ => destruct b end; cbn; auto.
  Qed.

  Theorem level_ag : forall n n' x e, gsteady level x = true -> pag (run n x e) (run n' x e).
  Proof.
    induction n as [n IHn] using lt_wf_ind. intros n' x e G.
    destruct n as [|n]; [intros pm pm' p; exact I|]. destruct n' as [|n']; [intros pm pm' p; apply ag_any_abort|].
    assert (IH : forall x e, gsteady level x = true -> pag (run n x e) (run n' x e)) by (intros; apply IHn; auto).
    destruct x as [m err|nn| |steps b|gs|y|y|app sep f|sep f|sep f|sep f|o c|y|y|y err|y err|l y|err y|y z|stmt];
      try discriminate G.
    - apply pag_tok.
    - change (pag (run n (table nn) []) (run n' (table nn) [])). destruct (level_ok nn G) as [->|Gt]; [|now apply IH].
      destruct n as [|n]; [intros pm pm' p; exact I|]. destruct n' as [|n']; [intros pm pm' p; apply ag_any_abort|].
      apply pag_array. intros; apply IHn; auto.
    - intros pm pm' p. cbn. auto.
    - change (pag (run_steps toks (run n) steps b e) (run_steps toks (run n') steps b e)). apply pag_steps. intros pt y e' J. apply IH.
      eapply gsteady_steps; eauto.
    - change (pag (alternate pt_lt recov (map (fun x => run n x e) gs)) (alternate pt_lt recov (map (fun x => run n' x e) gs))).
      apply pag_alternate. assert (A : forall y, In y gs -> gsteady level y = true) by (intros y J; eapply gsteady_alts; eauto). clear G.
      induction gs as [|y gs IHg]; cbn [map]; constructor; [apply IH, A; now left|apply IHg; intros z J; apply A; now right].
    - apply (pag_map (optional pt_lt recov (run n y e)) (optional pt_lt recov (run n' y e))), pag_optional, IH, G.
    - apply (pag_map (zero_or_more pt_lt recov n (run n y e)) (zero_or_more pt_lt recov n' (run n' y e))), pag_many, IH, G.
    - cbn [gsteady] in G. apply andb_true_iff in G as [G1 G2]. intros pm pm' p. cbn [Grammar.run].
      destruct (beval toks p e app) as [v|]; [|exact I]. destruct v; try exact I. apply pag_tailed; auto.
    - cbn [gsteady] in G. apply andb_true_iff in G as [G1 G2]. apply (pag_tailed1 (run n sep e) (run n' sep e)); auto.
    - cbn [gsteady] in G. apply andb_true_iff in G as [G1 G2]. apply (pag_resume (run n sep e) (run n' sep e)); auto.
    - cbn [gsteady] in G. apply andb_true_iff in G as [G1 G2]. apply (pag_implicit (run n sep e) (run n' sep e)); auto.
    - intros pm pm' p. cbn [Grammar.run]. unfold nested. destruct (ex toks _ _); cbn; auto.
    - intros pm pm' p. cbn [Grammar.run]. pose proof (IH y e G) as H. both (run n y e) (run n' y e) H pm pm' p; try apply ag_any_abort.
      destruct (ex toks p q); cbn; auto.
    - apply (pag_map (peek (run n y e)) (peek (run n' y e))), pag_peek, IH, G.
    - intros pm pm' p. cbn [Grammar.run]. pose proof (IH y e G) as H. both (run n y e) (run n' y e) H pm pm' p; try apply ag_any_abort.
    - intros pm pm' p. cbn [Grammar.run]. pose proof (IH y e G) as H. both (run n y e) (run n' y e) H pm pm' p; try apply ag_any_abort.
      destruct v; try exact I. destruct (into_simple n0); cbn; auto.
    - intros pm pm' p. cbn [Grammar.run]. unfold with_amb. pose proof (pure_ag n n' y e (set_amb pm l) (set_amb pm' l) p eq_refl) as H.
      destruct (run n y e (set_amb pm l) p), (run n' y e (set_amb pm' l) p). exact H.
  Qed.
End Level.
