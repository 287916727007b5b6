(** The struct-literal restriction ([ExpressionAmbiguity]) is scoped. *)

From Coq Require Import String List Arith Bool Lia.
From Verif Require Import Base Peresil Token Schema Value Nt Grammar Table Static.
Import ListNotations.
Local Open Scope list_scope.
Local Open Scope nat_scope.

(** * Every parser leaves the restriction as it found it *)

Definition keeps {A} (f : gparser A) : Prop := forall pm p, m_state (fst (f pm p)) = m_state pm.

Lemma keeps_eq {A} (f : gparser A) pm p pm' r : keeps f -> f pm p = (pm', r) -> m_state pm' = m_state pm.
Proof. intros K E. specialize (K pm p). now rewrite E in K. Qed.

Lemma record_state pm p (e : perror) : m_state (record_failure pt_lt pm p e) = m_state (S := ambiguity) pm.
Proof. reflexivity. Qed.

Ltac keep f K :=
  match goal with
  | |- context [f ?pm ?p] =>
      let pm' := fresh "pm" in let q := fresh "q" in let v := fresh "v" in let E := fresh "E" in
      destruct (f pm p) as [pm' [q v|q v|v]] eqn:E; apply (keeps_eq f _ _ _ _ K) in E
  end.

Section Keeps.
  Variable toks : list token.

  Lemma keeps_tok m err : keeps (tok toks m err).
  Proof.
    intros pm p. unfold tok. destruct (nth_error toks (off p)) as [t|]; [|reflexivity].
    destruct (match sub p with Some n => _ | None => _ end) as [u|]; [|reflexivity].
    destruct (convert m u); [reflexivity|]. destruct (split t (sub_rank (sub p))) as [[a b]|]; [|reflexivity].
    destruct (convert m a); reflexivity.
  Qed.

  Lemma keeps_nested o c : keeps (nested toks o c).
  Proof. intros pm p. unfold nested. destruct (ex toks _ _); reflexivity. Qed.

  Lemma keeps_steps rn steps b : (forall x e, keeps (rn x e)) -> forall e, keeps (run_steps toks rn steps b e).
  Proof.
    intros K. induction steps as [|[pt x] steps IH]; intros e pm p; cbn [run_steps].
    - destruct (beval toks p e b); reflexivity.
    - destruct (rn x e pm p) as [pm1 [q v|q v|w]] eqn:E; apply (keeps_eq _ _ _ _ _ (K x e)) in E; try exact E.
      destruct (bind_pat pt v e) as [e'|]; [|exact E]. rewrite (IH e' pm1 q). exact E.
  Qed.

  Lemma keeps_alternate (ps : list (gparser val)) : Forall keeps ps -> keeps (alternate pt_lt recov ps).
  Proof.
    assert (forall ps : list (gparser val), Forall keeps ps -> forall cur pm pt,
              m_state (fst (alternate_from pt_lt recov cur ps pm pt)) = m_state pm) as H.
    { induction 1 as [|f fs K F IH]; intros cur pm pt; cbn [alternate_from]; [reflexivity|].
      destruct cur as [q v|q v|w]; try reflexivity. cbn [recov].
      destruct (f pm pt) as [pm1 r] eqn:E. apply (keeps_eq _ _ _ _ _ K) in E. rewrite IH, record_state. exact E. }
    intros F pm pt. destruct F as [|f fs K F]; [reflexivity|]. cbn [alternate].
    destruct (f pm pt) as [pm1 r] eqn:E. apply (keeps_eq _ _ _ _ _ K) in E. rewrite H by auto. exact E.
  Qed.

  Lemma keeps_map {A B} (f : gparser A) (h : A -> B) : keeps f -> keeps (map_p f h).
  Proof. intros K pm p. unfold map_p. keep f K; exact E. Qed.

  Lemma keeps_optional (f : gparser val) : keeps f -> keeps (optional pt_lt recov f).
  Proof. intros K pm p. unfold optional. keep f K; exact E. Qed.

  Lemma keeps_peek (f : gparser val) : keeps f -> keeps (peek f).
  Proof. intros K pm p. unfold peek. keep f K; exact E. Qed.

  Lemma keeps_many (f : gparser val) n : keeps f -> keeps (zero_or_more pt_lt recov n f).
  Proof.
    intros K. induction n as [|n IH]; intros pm p; cbn [zero_or_more]; [reflexivity|].
    keep f K; try exact E. specialize (IH pm0 q).
    destruct (zero_or_more pt_lt recov n f pm0 q) as [pm1 [q1 v1|q1 v1|w]]; cbn [fst] in *; congruence.
  Qed.

  Lemma keeps_tailed (sep f : gparser val) n : keeps sep -> keeps f ->
    forall vs c l, keeps (tailed_loop n sep f vs c l).
  Proof.
    intros K1 K2. induction n as [|n IH]; intros vs c l pm p; cbn [tailed_loop]; [reflexivity|].
    keep f K2; try exact E. keep sep K1; first [cbn [fst]; congruence | rewrite IH; congruence].
  Qed.

  Lemma keeps_tailed1 (sep f : gparser val) n : keeps sep -> keeps f -> keeps (tailed1 n sep f).
  Proof.
    intros K1 K2 pm p. unfold tailed1. keep f K2; try exact E. keep sep K1; try (cbn [fst]; congruence).
    rewrite keeps_tailed by auto. congruence.
  Qed.

  Lemma keeps_resume (sep f : gparser val) n : keeps sep -> keeps f -> keeps (resume n sep f).
  Proof.
    intros K1 K2 pm p. unfold resume. keep sep K1; try exact E.
    pose proof (keeps_tailed1 sep f n K1 K2) as K3.
    destruct (tailed1 n sep f pm0 q) as [pm2 [q2 v2|q2 v2|w]] eqn:E2; apply (keeps_eq _ _ _ _ _ K3) in E2;
      try (cbn [fst]; congruence). destruct v2; cbn [fst]; congruence.
  Qed.

  Lemma keeps_implicit (sep f : gparser val) n : keeps sep -> keeps f ->
    forall vs c l, keeps (implicit_loop n sep f vs c l).
  Proof.
    intros K1 K2. induction n as [|n IH]; intros vs c l pm p; cbn [implicit_loop]; [reflexivity|].
    keep f K2; try exact E. keep sep K1; try (destruct (is_implicit_separator v));
      first [cbn [fst]; congruence | rewrite IH; congruence].
  Qed.

  Lemma with_amb_keeps l (f : gparser val) : keeps (with_amb l f).
  Proof. intros pm p. unfold with_amb. destruct (f (set_amb pm l) p) as [pm' r]. reflexivity. Qed.

  Lemma finish_state pm r : m_state (fst (finish_progress pm r)) = m_state pm.
  Proof. destruct r; reflexivity. Qed.

  Lemma keeps_shunt (f1 f2 f3 : gparser val) stmt n : keeps f1 -> keeps f2 -> keeps f3 ->
    forall y s, keeps (shunt_loop toks n f1 f2 f3 stmt y s).
  Proof.
    intros K1 K2 K3. induction n as [|n IH]; intros y s pm p; [reflexivity|]. cbn [shunt_loop].
    assert (forall pm1 o s1 nx p1, m_state pm1 = m_state pm ->
      m_state (fst (match add_op toks y o s1 p1 with
        | AOk y' => shunt_loop toks n f1 f2 f3 stmt y' (adapt_state stmt y' nx) pm1 p1
        | AErr q e => (pm1, Failure q e)
        | AAbort w => (pm1, Abort w)
        end)) = m_state pm) as ADD.
    { intros pm1 o s1 nx p1 H. destruct (add_op toks y o s1 p1); [rewrite IH| |]; exact H. }
    assert (forall up : bool, keeps (if up then with_amb Maximum f1 else f1)) as KU.
    { intros [|]; [apply with_amb_keeps|exact K1]. }
    assert (forall up : bool,
      m_state (fst (match (if up then with_amb Maximum f1 else f1) pm p with
              | (pm1, Success q (VVar _ "Prefix" op)) =>
                match add_op toks y (OpPrefix op) p q with
                | AOk y' => shunt_loop toks n f1 f2 f3 stmt y' (adapt_state stmt y' SPrefix) pm1 q
                | AErr q e => (pm1, Failure q e)
                | AAbort w => (pm1, Abort w)
                end
              | (pm1, Success q (VVar _ "Atom" v)) =>
                  shunt_loop toks n f1 f2 f3 stmt (add_expression y v p q) (adapt_state stmt (add_expression y v p q) SAtom) pm1 q
              | (pm1, Success _ _) => (pm1, Abort IllTyped)
              | (pm1, Failure q _) => finish_progress pm1 (finish_yard toks y q)
              | (pm1, Abort w) => (pm1, Abort w)
              end)) = m_state pm) as PA.
    { intros up. pose proof (KU up) as K. set (f := if up then with_amb Maximum f1 else f1) in *.
      destruct (f pm p) as [pm1 [q v|q v|w]] eqn:E; apply (keeps_eq _ _ _ _ _ K) in E.
      - destruct v as [| | | | | | | | | | |en vn op]; try exact E.
        repeat first [exact E | rewrite IH; exact E | apply ADD; exact E
                     | match goal with |- context [match ?x with _ => _ end] => is_var x; destruct x end].
      - rewrite finish_state. exact E.
      - exact E. }
    destruct s.
    - apply (PA false).
    - apply PA.
    - destruct (f2 pm p) as [pm1 [q v|q v|w]] eqn:E; apply (keeps_eq _ _ _ _ _ K2) in E.
      + destruct v as [| | | | | | | | | | |en vn op]; try exact E.
        repeat first [exact E | rewrite IH; exact E | apply ADD; exact E
                     | match goal with |- context [match ?x with _ => _ end] => is_var x; destruct x end].
      + rewrite finish_state. exact E.
      + exact E.
    - destruct (f2 pm p) as [pm1 [q v|q v|w]] eqn:E; apply (keeps_eq _ _ _ _ _ K2) in E.
      + destruct v as [| | | | | | | | | | |en vn op]; try exact E.
        repeat first [exact E | rewrite IH; exact E | apply ADD; exact E
                     | match goal with |- context [match ?x with _ => _ end] => is_var x; destruct x end].
      + rewrite finish_state. exact E.
      + exact E.
    - destruct (f3 pm p) as [pm1 [q v|q v|w]] eqn:E; apply (keeps_eq _ _ _ _ _ K3) in E.
      + apply ADD; exact E.
      + rewrite finish_state. exact E.
      + exact E.
  Qed.

  Theorem run_keeps tbl n : forall x e, keeps (run tbl toks n x e).
  Proof.
    induction n as [|n IH]; intros x e pm p; [destruct x; reflexivity|].
    destruct x as [m err|nn| |steps b|gs|y|y|app sep f|sep f|sep f|sep f|o c|y|y|y err|y err|l y|err y|a b|stmt];
      cbn [run].
    - apply keeps_tok.
    - apply IH.
    - reflexivity.
    - apply keeps_steps; auto.
    - apply keeps_alternate. apply Forall_map. apply Forall_forall. intros; apply IH.
    - apply keeps_map, keeps_optional, IH.
    - apply keeps_map, keeps_many, IH.
    - destruct (beval toks p e app) as [v|]; [|reflexivity]. destruct v; try reflexivity. now apply keeps_tailed.
    - now apply keeps_tailed1.
    - now apply keeps_resume.
    - now apply keeps_implicit.
    - apply keeps_nested.
    - destruct (run tbl toks n y e pm p) as [pm1 [q v|q v|w]] eqn:E; apply (keeps_eq _ _ _ _ _ (IH y e)) in E; try exact E.
      destruct (ex toks p q); exact E.
    - apply keeps_map, keeps_peek, IH.
    - destruct (run tbl toks n y e pm p) as [pm1 [q v|q v|w]] eqn:E; apply (keeps_eq _ _ _ _ _ (IH y e)) in E; exact E.
    - destruct (run tbl toks n y e pm p) as [pm1 [q v|q v|w]] eqn:E; apply (keeps_eq _ _ _ _ _ (IH y e)) in E; try exact E.
      destruct v; try exact E. destruct (into_simple n0); exact E.
    - apply with_amb_keeps.
    - destruct (is_maximum (m_state pm)); [reflexivity|]. apply IH.
    - destruct (is_ambiguous (m_state pm)); apply IH.
    - apply keeps_shunt; auto.
  Qed.
End Keeps.

(** * Parsers that do not depend on the restriction *)

Definition steady {A} (f : gparser A) : Prop :=
  forall pm a p, f (set_amb pm a) p = (set_amb (fst (f pm p)) a, snd (f pm p)).

(** [known n] says that the parser function [n] is known to be steady. *)
Fixpoint gsteady (known : nt -> bool) (x : g) : bool :=
  match x with
  | GTok _ _ | GPoint | GNested _ _ | GAmb _ _ => true
  | GNT n => known n
  | GSeq steps _ => (fix go (s : list (pat * g)) : bool :=
                       match s with [] => true | (_, y) :: s' => gsteady known y && go s' end) steps
  | GAlt gs => (fix go (s : list g) : bool :=
                  match s with [] => true | y :: s' => gsteady known y && go s' end) gs
  | GOpt y | GMany y | GExt y | GPeek y | GMapErr y _ | GSimple y _ => gsteady known y
  | GTailed _ sep f | GTailed1 sep f | GResume sep f | GImplicit sep f => gsteady known sep && gsteady known f
  | GIfMax _ _ | GIfAmb _ _ | GShunt _ => false
  end.

Definition steady_bits : list bool := Eval vm_compute in iter_b gsteady.
Definition known_steady : nt -> bool := lookup false steady_bits.

Lemma known_steady_ok n : known_steady n = true -> gsteady known_steady (table n) = true.
Proof.
  assert (forallb (fun n => implb (known_steady n) (gsteady known_steady (table n))) all_nts = true) as H
    by (vm_compute; reflexivity).
  rewrite forallb_forall in H. specialize (H n (all_nts_complete n)). intros K. now rewrite K in H.
Qed.

Lemma set_amb_set pm a b : set_amb (set_amb pm a) b = set_amb pm b.
Proof. reflexivity. Qed.

Lemma set_amb_record pm a p (e : perror) :
  record_failure pt_lt (set_amb pm a) p e = set_amb (record_failure pt_lt pm p e) a.
Proof. reflexivity. Qed.

Lemma fst_set_amb pm a (r : presult) : (set_amb pm a, r) = (set_amb (fst (pm, r)) a, snd (pm, r)).
Proof. reflexivity. Qed.

Section Steady.
  Variable toks : list token.

  Lemma steady_tok m err : steady (tok toks m err).
  Proof.
    intros pm a p. unfold tok. destruct (nth_error toks (off p)) as [t|]; [|reflexivity].
    destruct (match sub p with Some n => _ | None => _ end) as [u|]; [|reflexivity].
    destruct (convert m u); [reflexivity|]. destruct (split t (sub_rank (sub p))) as [[x y]|]; [|reflexivity].
    destruct (convert m x); reflexivity.
  Qed.

  Lemma steady_nested o c : steady (nested toks o c).
  Proof. intros pm a p. unfold nested. destruct (ex toks _ _); reflexivity. Qed.

  Lemma steady_with_amb l (f : gparser val) : steady (with_amb l f).
  Proof. intros pm a p. unfold with_amb. rewrite set_amb_set. destruct (f (set_amb pm l) p). reflexivity. Qed.

  Lemma steady_steps rn steps b : forall e,
    (forall p x e, In (p, x) steps -> steady (rn x e)) -> steady (run_steps toks rn steps b e).
  Proof.
    induction steps as [|[pt x] steps IH]; intros e K pm a p; cbn [run_steps].
    - destruct (beval toks p e b); reflexivity.
    - rewrite (K pt x e (or_introl eq_refl)).
      destruct (rn x e pm p) as [pm1 [q v|q v|w]]; try reflexivity. cbn [fst snd].
      destruct (bind_pat pt v e) as [e'|]; [|reflexivity]. apply IH. intros; eapply K; right; eauto.
  Qed.

  Lemma steady_alternate (ps : list (gparser val)) : Forall steady ps -> steady (alternate pt_lt recov ps).
  Proof.
    assert (forall ps : list (gparser val), Forall steady ps -> forall cur pm a pt,
              alternate_from pt_lt recov cur ps (set_amb pm a) pt =
              (set_amb (fst (alternate_from pt_lt recov cur ps pm pt)) a, snd (alternate_from pt_lt recov cur ps pm pt))) as H.
    { induction 1 as [|f fs K F IH]; intros cur pm a pt; cbn [alternate_from]; [reflexivity|].
      destruct cur as [q v|q v|w]; try reflexivity. cbn [recov].
      rewrite K. destruct (f pm pt) as [pm1 r]. cbn [fst snd]. rewrite set_amb_record. apply IH. }
    intros F pm a pt. destruct F as [|f fs K F]; [reflexivity|]. cbn [alternate].
    rewrite K. destruct (f pm pt) as [pm1 r]. cbn [fst snd]. now apply H.
  Qed.

  Lemma steady_map {A B} (f : gparser A) (h : A -> B) : steady f -> steady (map_p f h).
  Proof. intros K pm a p. unfold map_p. rewrite K. destruct (f pm p) as [pm1 [q v|q v|w]]; reflexivity. Qed.

  Lemma steady_optional (f : gparser val) : steady f -> steady (optional pt_lt recov f).
  Proof. intros K pm a p. unfold optional. rewrite K. destruct (f pm p) as [pm1 [q v|q v|w]]; reflexivity. Qed.

  Lemma steady_peek (f : gparser val) : steady f -> steady (peek f).
  Proof. intros K pm a p. unfold peek. rewrite K. destruct (f pm p) as [pm1 [q v|q v|w]]; reflexivity. Qed.

  Lemma steady_many (f : gparser val) n : steady f -> steady (zero_or_more pt_lt recov n f).
  Proof.
    intros K. induction n as [|n IH]; intros pm a p; cbn [zero_or_more]; [reflexivity|].
    rewrite K. destruct (f pm p) as [pm1 [q v|q v|w]]; try reflexivity. cbn [fst snd]. rewrite IH.
    destruct (zero_or_more pt_lt recov n f pm1 q) as [pm2 [q1 v1|q1 v1|w]]; reflexivity.
  Qed.

  Lemma steady_tailed (sep f : gparser val) n : steady sep -> steady f ->
    forall vs c l, steady (tailed_loop n sep f vs c l).
  Proof.
    intros K1 K2. induction n as [|n IH]; intros vs c l pm a p; cbn [tailed_loop]; [reflexivity|].
    rewrite K2. destruct (f pm p) as [pm1 [q v|q v|w]]; try reflexivity. cbn [fst snd].
    rewrite K1. destruct (sep pm1 q) as [pm2 [q2 v2|q2 v2|w]]; try reflexivity. cbn [fst snd]. apply IH.
  Qed.

  Lemma steady_tailed1 (sep f : gparser val) n : steady sep -> steady f -> steady (tailed1 n sep f).
  Proof.
    intros K1 K2 pm a p. unfold tailed1.
    rewrite K2. destruct (f pm p) as [pm1 [q v|q v|w]]; try reflexivity. cbn [fst snd].
    rewrite K1. destruct (sep pm1 q) as [pm2 [q2 v2|q2 v2|w]]; try reflexivity. cbn [fst snd]. now apply steady_tailed.
  Qed.

  Lemma steady_resume (sep f : gparser val) n : steady sep -> steady f -> steady (resume n sep f).
  Proof.
    intros K1 K2 pm a p. unfold resume.
    rewrite K1. destruct (sep pm p) as [pm1 [q v|q v|w]]; try reflexivity. cbn [fst snd].
    rewrite (steady_tailed1 sep f n K1 K2). destruct (tailed1 n sep f pm1 q) as [pm2 [q2 v2|q2 v2|w]]; try reflexivity.
    cbn [fst snd]. destruct v2; reflexivity.
  Qed.

  Lemma steady_implicit (sep f : gparser val) n : steady sep -> steady f ->
    forall vs c l, steady (implicit_loop n sep f vs c l).
  Proof.
    intros K1 K2. induction n as [|n IH]; intros vs c l pm a p; cbn [implicit_loop]; [reflexivity|].
    rewrite K2. destruct (f pm p) as [pm1 [q v|q v|w]]; try reflexivity. cbn [fst snd].
    rewrite K1. destruct (sep pm1 q) as [pm2 [q2 v2|q2 v2|w]]; try reflexivity; cbn [fst snd].
    - apply IH.
    - destruct (is_implicit_separator v); [apply IH|reflexivity].
  Qed.

  Theorem run_steady n : forall x e, gsteady known_steady x = true -> steady (run table toks n x e).
  Proof.
    induction n as [|n IH]; intros x e G; [intros pm a p; destruct x; reflexivity|].
    destruct x as [m err|nn| |steps b|gs|y|y|app sep f|sep f|sep f|sep f|o c|y|y|y err|y err|l y|err y|y z|stmt];
      cbn [gsteady] in G; try discriminate.
    all: try (apply andb_true_iff in G; destruct G as [G1 G2]).
    - apply steady_tok.
    - apply (IH (table nn) []). now apply known_steady_ok.
    - intros pm a p. reflexivity.
    - apply steady_steps. intros p y e' I. apply IH. clear -G I.
      induction steps as [|[q z] steps IHs]; [destruct I|]. apply andb_true_iff in G. destruct G as [G1 G2].
      destruct I as [I|I]; [injection I as -> ->; exact G1|auto].
    - apply steady_alternate. apply Forall_map. apply Forall_forall. intros y I. apply IH. clear -G I.
      induction gs as [|z gs IHs]; [destruct I|]. apply andb_true_iff in G. destruct G as [G1 G2].
      destruct I as [->|I]; [exact G1|auto].
    - apply steady_map, steady_optional, IH, G.
    - apply steady_map, steady_many, IH, G.
    - intros pm a p. cbn [run]. destruct (beval toks p e app) as [v|]; [|reflexivity]. destruct v; try reflexivity.
      apply steady_tailed; auto.
    - apply steady_tailed1; auto.
    - apply steady_resume; auto.
    - apply steady_implicit; auto.
    - apply steady_nested.
    - intros pm a p. cbn [run]. rewrite (IH y e G). destruct (run table toks n y e pm p) as [pm1 [q v|q v|w]]; try reflexivity.
      cbn [fst snd]. destruct (ex toks p q); reflexivity.
    - apply steady_map, steady_peek, IH, G.
    - intros pm a p. cbn [run]. rewrite (IH y e G). destruct (run table toks n y e pm p) as [pm1 [q v|q v|w]]; reflexivity.
    - intros pm a p. cbn [run]. rewrite (IH y e G). destruct (run table toks n y e pm p) as [pm1 [q v|q v|w]]; try reflexivity.
      cbn [fst snd]. destruct v; try reflexivity. destruct (into_simple n0); reflexivity.
    - apply steady_with_amb.
  Qed.
End Steady.

(** The constructs inside which the restriction is lifted: the outcome is the
    same whatever the restriction outside. *)
Definition lifting : list nt :=
  [N_expr_tuple_or_parenthetical; N_expr_array_explicit; N_operator_postfix_call; N_operator_postfix_slice;
   N_match_arm_guard; N_match_arm_hand; N_expr_value_struct_literal].

Lemma lifting_steady n : In n lifting -> known_steady n = true.
Proof.
  assert (forallb known_steady lifting = true) as H by (vm_compute; reflexivity).
  rewrite forallb_forall in H. apply H.
Qed.
