(** How far a parser gets: it never moves back, it never forgets a failure, and
    a static analysis of which parsers record where they failed. *)

From Coq Require Import String List Arith Bool Lia.
From Verif Require Import Base Peresil Token Schema Value Nt Grammar Table Static Rel.
Import ListNotations.
Local Open Scope string_scope.
Local Open Scope list_scope.
Local Open Scope nat_scope.

(** * The static analysis *)
Section Analysis.
  Variables nft sht rct : nt -> bool.

  (** Never fails. *)
  Fixpoint nfg (x : g) : bool :=
    match x with
    | GNT n => nft n
    | GPoint | GOpt _ | GMany _ | GTailed _ _ _ | GResume _ _ | GImplicit _ _ | GNested _ _ => true
    | GSeq steps _ => forallb (fun s => nfg (snd s)) steps
    | GAlt gs => (fix lst (l : list g) := match l with [] => true | [y] => nfg y | _ :: l' => lst l' end) gs
    | GTailed1 _ y | GExt y | GPeek y | GMapErr y _ | GAmb _ y => nfg y
    | GIfAmb a b => nfg a && nfg b
    | _ => false
    end.

  Definition is_point (x : g) : bool := match x with GPoint => true | _ => false end.

  (** Fails where it started only. *)
  Fixpoint shg (x : g) : bool :=
    match x with
    | GNT n => sht n
    | GTok _ _ => true
    | GPoint | GOpt _ | GMany _ | GTailed _ _ _ | GResume _ _ | GImplicit _ _ | GNested _ _ => true
    | GSeq steps _ =>
        (fix go (l : list (pat * g)) := match l with
          | [] => true
          | (_, y) :: l' => if is_point y then go l' else shg y && forallb (fun s => nfg (snd s)) l'
          end) steps
    | GAlt gs => (fix lst (l : list g) := match l with [] => true | [y] => shg y | _ :: l' => lst l' end) gs
    | GTailed1 _ y | GExt y | GMapErr y _ | GSimple y _ | GAmb _ y | GIfMax _ y => shg y
    | GPeek _ => true
    | GIfAmb a b => shg a && shg b
    | GShunt _ => false
    end.

  (** Records a failure as far as where it fails. *)
  Fixpoint rcg (x : g) : bool :=
    match x with
    | GNT n => rct n
    | GPoint | GOpt _ | GMany _ | GTailed _ _ _ | GResume _ _ | GImplicit _ _ | GNested _ _ => true
    | GSeq steps _ => forallb (fun s => rcg (snd s)) steps
    | GAlt gs =>
        (fix lst (l : list g) := match l with [] => true | [y] => rcg y | _ :: l' => lst l' end) gs
        || (2 <=? List.length gs) &&
           (fix lst (l : list g) := match l with [] => true | [y] => shg y | _ :: l' => lst l' end) gs
    | GTailed1 _ y | GExt y | GMapErr y _ | GAmb _ y => rcg y
    | GIfAmb a b => rcg a && rcg b
    | _ => false
    end.
End Analysis.

(** The greatest solution over the table: nothing is lost, since a parser that
    only calls itself runs out of fuel. *)
Definition rstep (l : list (bool * bool * bool)) : list (bool * bool * bool) :=
  let f n := lookup (false, false, false) l n in
  let nft n := fst (fst (f n)) in let sht n := snd (fst (f n)) in let rct n := snd (f n) in
  map (fun n => (nfg nft (table n), shg nft sht (table n), rcg nft sht rct (table n))) all_nts.
Definition rlist : list (bool * bool * bool) :=
  Eval vm_compute in Nat.iter 30 rstep (map (fun _ => (true, true, true)) all_nts).
Definition nft (n : nt) : bool := fst (fst (lookup (false, false, false) rlist n)).
Definition sht (n : nt) : bool := snd (fst (lookup (false, false, false) rlist n)).
Definition rct (n : nt) : bool := snd (lookup (false, false, false) rlist n).
Definition nf : g -> bool := nfg nft.
Definition sh : g -> bool := shg nft sht.
Definition rc : g -> bool := rcg nft sht rct.

Lemma rlist_checked :
  forallb (fun n => implb (nft n) (nf (table n)) && implb (sht n) (sh (table n)) && implb (rct n) (rc (table n)))
    all_nts = true.
Proof. vm_compute. reflexivity. Qed.

Lemma rlist_ok n :
  (nft n = true -> nf (table n) = true) /\ (sht n = true -> sh (table n) = true) /\ (rct n = true -> rc (table n) = true).
Proof.
  pose proof rlist_checked as H. rewrite forallb_forall in H. specialize (H n (all_nts_complete n)).
  apply andb_prop in H as [H H3]. apply andb_prop in H as [H1 H2].
  destruct (nft n), (sht n), (rct n); cbn in *; auto; repeat split; auto; discriminate.
Qed.

(** Wherever the grammar drops a failure or moves back, the failure was recorded
    or is that of a single token. *)
Definition is_tok (x : g) : bool := match x with GTok _ _ => true | _ => false end.

Fixpoint drops (x : g) : bool :=
  match x with
  | GTok _ _ | GNT _ | GPoint | GNested _ _ | GShunt _ => true
  | GSeq steps _ => forallb (fun s => drops (snd s)) steps
  | GAlt gs => forallb drops gs
  | GOpt y | GMany y | GExt y | GMapErr y _ | GAmb _ y | GIfMax _ y => drops y
  | GTailed _ a b | GTailed1 a b | GImplicit a b | GIfAmb a b => drops a && drops b
  | GResume a b => rc b && drops a && drops b
  | GPeek y | GSimple y _ => is_tok y
  end.

Lemma drops_checked : forallb (fun n => drops (table n)) all_nts = true.
Proof. vm_compute. reflexivity. Qed.

Lemma table_drops n : drops (table n) = true.
Proof. pose proof drops_checked as H. rewrite forallb_forall in H. apply H, all_nts_complete. Qed.

(** The parsers of the yard. *)
Lemma yard_records :
  rct N_expression_prefix_or_atom = true /\ rct N_expression_infix_or_postfix = true /\
  rct N_operator_postfix_limited = true.
Proof. vm_compute. auto. Qed.

(** * Parsers move forward *)

(** The order of points. *)
Definition ple (p q : point) : Prop :=
  off p < off q \/ off p = off q /\ sub_rank (sub p) <= sub_rank (sub q).

Lemma ple_off p q : ple p q -> off p <= off q.
Proof. unfold ple. lia. Qed.
Lemma ple_trans p q r : ple p q -> ple q r -> ple p r.
Proof. unfold ple. lia. Qed.
Lemma ple_refl p : ple p p.
Proof. unfold ple. lia. Qed.
Lemma ple_lt p q : ple p q -> pt_lt q p = false.
Proof.
  unfold ple, pt_lt. intros H. destruct (Nat.ltb_spec (off q) (off p)); [lia|].
  destruct (Nat.eqb_spec (off q) (off p)); [|reflexivity]. apply Nat.ltb_ge. lia.
Qed.

Definition fo (pm : pm_t) : nat := off (f_point (m_failures pm)).

Definition ahead {A} (pm : pm_t) (p : point) (x : pm_t * progress point A perror) : Prop :=
  fo pm <= fo (fst x) /\
  match snd x with Success q _ => ple p q | Failure q _ => ple p q | Abort _ => True end.

Definition keeps {A} (f : gparser A) : Prop := forall pm p, ahead pm p (f pm p).

(** What a failure of a parser tells. *)
Definition nofails {A} (f : gparser A) : Prop := forall pm p pm' q e, f pm p <> (pm', Failure q e).
Definition shallow {A} (f : gparser A) : Prop := forall pm p pm' q e, f pm p = (pm', Failure q e) -> off q <= off p.
Definition records {A} (f : gparser A) : Prop := forall pm p pm' q e, f pm p = (pm', Failure q e) -> off q <= fo pm'.

Lemma record_fo pm p e : fo pm <= fo (record_failure pt_lt pm p e) /\ off p <= fo (record_failure pt_lt pm p e).
Proof.
  unfold fo, record_failure, add_failure. cbn [m_failures]. unfold pt_lt.
  destruct (m_failures pm) as [fp ks]. cbn [f_point].
  destruct (Nat.ltb_spec (off p) (off fp)); cbn [f_point]; [lia|].
  destruct (Nat.eqb_spec (off p) (off fp)).
  - destruct (sub_rank (sub p) <? sub_rank (sub fp)); cbn [f_point]; [lia|].
    destruct (off fp <? off p); cbn [f_point]; [lia|].
    destruct (off fp =? off p); [destruct (_ <? _)|]; cbn [f_point]; lia.
  - destruct (Nat.ltb_spec (off fp) (off p)); cbn [f_point]; lia.
Qed.

(** Run [f] at the parse master and point of the goal. *)
Ltac go H :=
  match type of H with
  | keeps ?f =>
      match goal with
      | |- context [f ?pm ?p] =>
          let K := fresh "K" in let K' := fresh "K'" in let E := fresh "E" in
          let pm1 := fresh "pm" in let q := fresh "q" in
          pose proof (H pm p) as K; destruct (f pm p) as [pm1 [q ?|q ?|?]] eqn:E; destruct K as [K K'];
          cbn [fst snd] in K, K'
      end
  end.
Lemma ahead_trans {A} pm p pm1 q (x : pm_t * progress point A perror) :
  ahead pm1 q x -> fo pm <= fo pm1 -> ple p q -> ahead pm p x.
Proof. intros [C D] A1 A2. split; [lia|]. destruct (snd x); auto; eapply ple_trans; eauto. Qed.

Ltac fin := split; cbn [fst snd]; try exact I; unfold ple in *; cbn [off sub sub_rank] in *; lia.

Lemma map_keeps {A B} (f : gparser A) (h : A -> B) : keeps f -> keeps (map_p f h).
Proof. intros H pm p. unfold map_p. go H; fin. Qed.

Lemma optional_keeps f : keeps (A:=val) f -> keeps (optional pt_lt recov f).
Proof.
  intros H pm p. unfold optional. go H; [fin| |fin]. cbn [recov].
  pose proof (record_fo pm0 q e). fin.
Qed.

Lemma many_keeps f : keeps (A:=val) f -> forall n, keeps (zero_or_more pt_lt recov n f).
Proof.
  intros H n. induction n as [|n IH]; intros pm p; cbn [zero_or_more]; [fin|].
  go H; [|cbn [recov]; pose proof (record_fo pm0 q e); fin|fin]. go IH; fin.
Qed.

Lemma peek_keeps f : keeps (A:=val) f -> keeps (peek f).
Proof. intros H pm p. unfold peek. go H; fin. Qed.

Lemma alternate_from_keeps (fs : list (gparser val)) : Forall keeps fs -> forall r pm p,
  match r with Success q _ => ple p q | Failure q _ => ple p q | Abort _ => True end ->
  ahead pm p (alternate_from pt_lt recov r fs pm p).
Proof.
  induction 1 as [|f fs H _ IH]; intros r pm p Hr; cbn [alternate_from]; [split; [cbn; lia|exact Hr]|].
  destruct r as [q v|q e|w]; [fin| |fin]. cbn [recov]. pose proof (H pm p) as K.
  destruct (f pm p) as [pm1 r1]. destruct K as [K K']. cbn [fst snd] in *.
  pose proof (record_fo pm1 q e) as [A B]. specialize (IH r1 (record_failure pt_lt pm1 q e) p K').
  destruct IH as [C D]. split; [lia|exact D].
Qed.

Lemma alternate_keeps (fs : list (gparser val)) : Forall keeps fs -> keeps (alternate pt_lt recov fs).
Proof.
  intros H pm p. destruct H as [|f fs H Hs]; cbn [alternate]; [fin|].
  pose proof (H pm p) as K. destruct (f pm p) as [pm1 r1]. destruct K as [K K']. cbn [fst snd] in *.
  destruct (alternate_from_keeps fs Hs r1 pm1 p K') as [C D]. split; [lia|exact D].
Qed.

Lemma tailed_keeps s f : keeps s -> keeps f -> forall n l c b, keeps (tailed_loop n s f l c b).
Proof.
  intros Hs Hf n. induction n as [|n IH]; intros l c b pm p; cbn [tailed_loop]; [fin|].
  go Hf; [|fin|fin]. go Hs; [|fin|fin].
  eapply ahead_trans; [apply (IH (l ++ [v]) (S c) true pm1 q0)|lia|unfold ple in *; lia].
Qed.

Lemma tailed1_keeps s f : keeps s -> keeps f -> forall n, keeps (tailed1 n s f).
Proof.
  intros Hs Hf n pm p. unfold tailed1. go Hf; [|fin|fin]. go Hs; [|fin|fin].
  eapply ahead_trans; [apply (tailed_keeps s f Hs Hf n [v] 1 false pm1 q0)|lia|unfold ple in *; lia].
Qed.

Lemma resume_keeps s f : keeps s -> keeps f -> forall n, keeps (resume n s f).
Proof.
  intros Hs Hf n pm p. unfold resume. go Hs; [|fin|fin].
  pose proof (tailed1_keeps s f Hs Hf n) as Ht. go Ht; [|fin|fin]. destruct v0; fin.
Qed.

Lemma implicit_keeps s f : keeps s -> keeps f -> forall n l c b, keeps (implicit_loop n s f l c b).
Proof.
  intros Hs Hf n. induction n as [|n IH]; intros l c b pm p; cbn [implicit_loop]; [fin|].
  go Hf; [|fin|fin]. go Hs; [| |fin].
  - eapply ahead_trans; [apply (IH (l ++ [v]) (S c) true pm1 q0)|lia|unfold ple in *; lia].
  - destruct (is_implicit_separator v); [|fin].
    eapply ahead_trans; [apply (IH (l ++ [v]) (S c) false pm1 q0)|lia|unfold ple in *; lia].
Qed.

Lemma with_amb_keeps l f : keeps f -> keeps (with_amb l f).
Proof.
  intros H pm p. unfold with_amb. pose proof (H (set_amb pm l) p) as K.
  destruct (f (set_amb pm l) p) as [pm1 r]. exact K.
Qed.

Section Run.
  Variable toks : list token.

  Lemma tok_keeps m err : keeps (tok toks m err).
  Proof.
    intros pm p. unfold tok. destruct (nth_error toks (off p)) as [t|]; [|fin].
    destruct (match sub p with Some n => match split t n with Some (_, b) => Some b | None => None end | None => Some t end); [|fin].
    destruct (convert m t0); [fin|]. destruct (split t (sub_rank (sub p))) as [[a b]|]; [|fin].
    destruct (convert m a); fin.
  Qed.

  Lemma ex_forward s e x : ex toks s e = BOk x -> ple s e.
  Proof.
    unfold ex, ple. destruct (nth_error toks (off s)); [|discriminate].
    destruct (Nat.compare_spec (off s) (off e)); try discriminate; [|lia].
    destruct (Nat.compare_spec (sub_rank (sub s)) (sub_rank (sub e))); try discriminate; lia.
  Qed.

  (** It would panic at a part of a token. *)
  Lemma nested_keeps o c : keeps (nested toks o c).
  Proof.
    intros pm p. unfold nested. destruct (ex toks p _) eqn:E; [|fin]. apply ex_forward in E.
    split; [cbn; lia|exact E].
  Qed.

  Lemma steps_keeps rn steps b : (forall x e, keeps (rn x e)) -> forall e, keeps (run_steps toks rn steps b e).
  Proof.
    intros H. induction steps as [|[pt x] steps IH]; intros e pm p; cbn [run_steps].
    - destruct (beval toks p e b); fin.
    - pose proof (H x e) as Hx. go Hx; [|fin|fin]. destruct (bind_pat pt v e) as [e'|]; [|fin].
      eapply ahead_trans; [apply (IH e' pm0 q)|lia|unfold ple in *; lia].
  Qed.

  (** ** The yard *)
  Definition cin {A} (lo : point) (c : car A) : Prop := ple lo (c_spt c) /\ ple lo (c_ept c).
  Definition yin (lo : point) (y : yard) : Prop := Forall (cin lo) (y_ops y) /\ Forall (cin lo) (y_res y).
  Definition ain {A} (lo : point) (P : A -> Prop) (r : ares A) : Prop :=
    match r with AOk a => P a | AErr p _ => ple lo p | AAbort _ => True end.

  Lemma ain_bind {A B} lo (P : A -> Prop) (Q : B -> Prop) r k :
    ain lo P r -> (forall a, P a -> ain lo Q (k a)) -> ain lo Q (abind r k).
  Proof. destruct r; cbn; auto. Qed.

  Lemma ain_any {A} lo (r : bres A) : ain lo (fun _ => True) (a_of_b r).
  Proof. destruct r; exact I. Qed.

  Lemma pop_in lo res loc : Forall (cin lo) res -> ple lo loc ->
    ain lo (fun x => cin lo (fst x) /\ Forall (cin lo) (snd x)) (pop_expression res loc).
  Proof. intros [|c res' C F] L; cbn; auto. Qed.

  Ltac pop := eapply ain_bind; [apply pop_in; eassumption|intros [? ?] [? ?]; cbn [fst snd] in *].
  Ltac exa := eapply ain_bind; [apply ain_any|intros ? _].
  Ltac car := constructor; [split; cbn [c_spt c_ept]; unfold cin in *; tauto|assumption].

  Lemma prefix_in lo res s e x a f : Forall (cin lo) res -> ple lo s -> ple lo e ->
    ain lo (Forall (cin lo)) (apply_prefix toks res s e x a f).
  Proof. intros F S E. unfold apply_prefix. pop. destruct (pt_lt _ _); [exact S|]. exa. car. Qed.

  Lemma maybe_prefix_in lo res s e x a f : Forall (cin lo) res -> ple lo s -> ple lo e ->
    ain lo (Forall (cin lo)) (apply_maybe_prefix toks res s e x a f).
  Proof.
    intros F S E. unfold apply_maybe_prefix. destruct res; [|now apply prefix_in]. exa. car.
  Qed.

  Lemma infix_in lo res s e f : Forall (cin lo) res -> ple lo s -> ple lo e ->
    ain lo (Forall (cin lo)) (apply_infix toks res s e f).
  Proof. intros F S E. unfold apply_infix. pop. pop. exa. car. Qed.

  Lemma maybe_infix_in lo res s e f : Forall (cin lo) res -> ple lo s -> ple lo e ->
    ain lo (Forall (cin lo)) (apply_maybe_infix toks res s e f).
  Proof.
    intros F S E. unfold apply_maybe_infix. destruct (_ <=? 1); [|now apply infix_in]. pop. exa. car.
  Qed.

  Lemma postfix_in lo res s e f : Forall (cin lo) res -> ple lo s -> ple lo e ->
    ain lo (Forall (cin lo)) (apply_postfix toks res s e f).
  Proof. intros F S E. unfold apply_postfix. pop. exa. car. Qed.

  Lemma apply_one_in lo res o s e : Forall (cin lo) res -> ple lo s -> ple lo e ->
    ain lo (Forall (cin lo)) (apply_one toks res o s e).
  Proof.
    intros F S E. destruct o as [v|v|v]; destruct v as [| | | | | | | | | |n fs|en k p]; try exact I; cbn [apply_one].
    - destruct fs as [|[x| | | | | | | | | | |] fs]; try exact I. destruct fs as [|at_ fs]; try exact I.
      destruct fs as [|[| | | | | | | | | | |en k p] fs]; try exact I. destruct fs as [|ws [|? ?]]; try exact I.
      repeat match goal with |- context [String.eqb k ?s] => destruct (String.eqb k s) end;
        first [now apply prefix_in|now apply maybe_prefix_in].
    - repeat match goal with |- context [String.eqb k ?s] => destruct (String.eqb k s) end;
        first [now apply infix_in|now apply maybe_infix_in].
    - repeat match goal with |- context [String.eqb k ?s] => destruct (String.eqb k s) end; now apply postfix_in.
  Qed.

  Lemma precedence_in lo o ops : forall res, Forall (cin lo) ops -> Forall (cin lo) res ->
    ain lo (yin lo) (apply_precedence toks ops res o).
  Proof.
    induction ops as [|t ops IH]; intros res O R; cbn [apply_precedence]; [split; auto|].
    inversion_clear O as [|? ? [C1 C2] O']. destruct (should_pop o (c_val t)).
    - eapply ain_bind; [apply apply_one_in; eassumption|]. intros res' R'. now apply IH.
    - split; [constructor; [split|]|]; assumption.
  Qed.

  Lemma all_in lo ops : forall res, Forall (cin lo) ops -> Forall (cin lo) res ->
    ain lo (Forall (cin lo)) (apply_all toks ops res).
  Proof.
    induction ops as [|t ops IH]; intros res O R; cbn [apply_all]; [exact R|].
    inversion_clear O as [|? ? [C1 C2] O'].
    eapply ain_bind; [apply apply_one_in; eassumption|]. intros res' R'. now apply IH.
  Qed.

  Lemma add_op_in lo y o s e : yin lo y -> ple lo s -> ple lo e -> ain lo (yin lo) (add_op toks y o s e).
  Proof.
    intros [A B] S E. unfold add_op. eapply ain_bind; [now apply precedence_in|].
    intros y' [C D]. split; [constructor; [split|]|]; assumption.
  Qed.

  Lemma finish_in lo y p : yin lo y -> ple lo p -> ain lo (cin lo) (finish_yard toks y p).
  Proof.
    intros [A B] L. unfold finish_yard. eapply ain_bind; [now apply all_in|].
    intros [|c [|d res]] R; cbn; auto. now inversion_clear R.
  Qed.

  Lemma shunt_keeps f1 f2 f3 stmt : keeps f1 -> keeps f2 -> keeps f3 -> forall n lo y s pm p,
    yin lo y -> ple lo p ->
    let x := shunt_loop toks n f1 f2 f3 stmt y s pm p in
    fo pm <= fo (fst x) /\
    match snd x with Success q _ => ple lo q | Failure q _ => ple lo q | Abort _ => True end.
  Proof.
    intros H1 H2 H3 n. induction n as [|n IH]; intros lo y s pm p Y L; [cbn; auto|].
    rewrite shunt_loop_S. cbv zeta.
    assert (FIN : forall pm1 q, fo pm <= fo pm1 -> ple p q ->
      let x := finish_progress pm1 (finish_yard toks y q) in
      fo pm <= fo (fst x) /\
      match snd x with Success q _ => ple lo q | Failure q _ => ple lo q | Abort _ => True end).
    { intros pm1 q K Q. cbv zeta. pose proof (finish_in lo y q Y ltac:(eauto using ple_trans)) as F.
      destruct (finish_yard toks y q) as [c|r e|w]; cbn in F |- *; split; cbn; auto. apply F. }
    assert (ADD : forall pm1 o nx q, fo pm <= fo pm1 -> ple p q ->
      let x := match add_op toks y o p q with
             | AOk y' => shunt_loop toks n f1 f2 f3 stmt y' (adapt_state stmt y' nx) pm1 q
             | AErr q e => (pm1, Failure q e)
             | AAbort w => (pm1, Abort w)
             end in
      fo pm <= fo (fst x) /\
      match snd x with Success q _ => ple lo q | Failure q _ => ple lo q | Abort _ => True end).
    { intros pm1 o nx q K Q. cbv zeta. pose proof (add_op_in lo y o p q Y ltac:(eauto using ple_trans) ltac:(eauto using ple_trans)) as F.
      destruct (add_op toks y o p q) as [y'|r e|w]; cbn in F; [|cbn; auto|cbn; auto].
      destruct (IH lo y' (adapt_state stmt y' nx) pm1 q F ltac:(eauto using ple_trans)) as [A B]. split; [lia|exact B]. }
    assert (PA : forall pm1 v q, fo pm <= fo pm1 -> ple p q ->
      let x := on_prefix_or_atom v
          (fun op => match add_op toks y (OpPrefix op) p q with
             | AOk y' => shunt_loop toks n f1 f2 f3 stmt y' (adapt_state stmt y' SPrefix) pm1 q
             | AErr q e => (pm1, Failure q e)
             | AAbort w => (pm1, Abort w)
             end)
          (fun v => shunt_loop toks n f1 f2 f3 stmt (add_expression y v p q)
             (adapt_state stmt (add_expression y v p q) SAtom) pm1 q) (pm1, Abort IllTyped) in
      fo pm <= fo (fst x) /\
      match snd x with Success q _ => ple lo q | Failure q _ => ple lo q | Abort _ => True end).
    { intros pm1 v q K Q. cbv zeta. destruct v as [| | | | | | | | | | |en k v]; cbn [on_prefix_or_atom];
        try (cbn; split; [assumption|exact I]).
      destruct (String.eqb k "Prefix"); [now apply ADD|].
      destruct (String.eqb k "Atom"); [|cbn; split; [assumption|exact I]].
      assert (Y' : yin lo (add_expression y v p q)).
      { destruct Y as [A B]. split; [exact A|]. constructor; [split; cbn; eauto using ple_trans|exact B]. }
      destruct (IH lo _ (adapt_state stmt (add_expression y v p q) SAtom) pm1 q Y' ltac:(eauto using ple_trans)) as [A B].
      split; [lia|exact B]. }
    assert (IP : forall pm1 v q, fo pm <= fo pm1 -> ple p q ->
      let x := on_infix_or_postfix v
          (fun op => match add_op toks y (OpInfix op) p q with
             | AOk y' => shunt_loop toks n f1 f2 f3 stmt y' (adapt_state stmt y' (SInfix (is_range op))) pm1 q
             | AErr q e => (pm1, Failure q e)
             | AAbort w => (pm1, Abort w)
             end)
          (fun op => match add_op toks y (OpPostfix op) p q with
             | AOk y' => shunt_loop toks n f1 f2 f3 stmt y' (adapt_state stmt y' SPostfix) pm1 q
             | AErr q e => (pm1, Failure q e)
             | AAbort w => (pm1, Abort w)
             end) (pm1, Abort IllTyped) in
      fo pm <= fo (fst x) /\
      match snd x with Success q _ => ple lo q | Failure q _ => ple lo q | Abort _ => True end).
    { intros pm1 v q K Q. cbv zeta. destruct v as [| | | | | | | | | | |en k v]; cbn [on_infix_or_postfix];
        try (cbn; split; [assumption|exact I]).
      destruct (String.eqb k "Infix"); [now apply ADD|].
      destruct (String.eqb k "Postfix"); [now apply ADD|cbn; split; [assumption|exact I]]. }
    destruct s as [|wr| | |].
    - go H1; [now apply PA|now apply FIN|fin].
    - destruct (is_ambiguous (m_state pm) && wr).
      + pose proof (with_amb_keeps Maximum f1 H1) as H1'. go H1'; [now apply PA|now apply FIN|fin].
      + go H1; [now apply PA|now apply FIN|fin].
    - go H2; [now apply IP|now apply FIN|fin].
    - go H2; [now apply IP|now apply FIN|fin].
    - go H3; [now apply ADD|now apply FIN|fin].
  Qed.

  Theorem run_keeps tbl n : forall x e, keeps (run tbl toks n x e).
  Proof.
    induction n as [|n IH]; intros x e pm p; [destruct x; split; cbn; auto|].
    destruct x as [mt err|nn| |steps b|gs|y|y|app sep f|sep f|sep f|sep f|o c|y|y|y err|y err|l y|err y|a b|stmt];
      cbn [run].
    - apply tok_keeps.
    - apply IH.
    - fin.
    - now apply steps_keeps.
    - apply alternate_keeps. induction gs; cbn [map]; constructor; auto.
    - apply map_keeps, optional_keeps, IH.
    - apply map_keeps, many_keeps, IH.
    - destruct (beval toks p e app) as [[]|]; try fin. apply tailed_keeps; apply IH.
    - apply tailed1_keeps; apply IH.
    - apply resume_keeps; apply IH.
    - apply implicit_keeps; apply IH.
    - apply nested_keeps.
    - pose proof (IH y e) as H. go H; [|fin|fin]. destruct (ex toks p q); fin.
    - apply map_keeps, peek_keeps, IH.
    - pose proof (IH y e) as H. go H; fin.
    - pose proof (IH y e) as H. go H; [|fin|fin]. destruct v; try fin. destruct (into_simple n0); fin.
    - apply with_amb_keeps, IH.
    - destruct (is_maximum (m_state pm)); [fin|apply IH].
    - destruct (is_ambiguous (m_state pm)); apply IH.
    - apply (shunt_keeps _ _ _ stmt (IH _ _) (IH _ _) (IH _ _) n p); [|apply ple_refl]. split; constructor.
  Qed.

  (** * The analysis is sound *)
  Lemma alternate_from_fails (fs : list (gparser val)) : Forall keeps fs -> forall r pm p pm' q e,
    match r with Success q _ => ple p q | Failure q _ => ple p q | Abort _ => True end ->
    alternate_from pt_lt recov r fs pm p = (pm', Failure q e) ->
    match rev fs with
    | [] => r = Failure q e /\ pm' = pm
    | f :: _ => off p <= fo pm' /\ exists pm0 pm1, f pm0 p = (pm1, Failure q e) /\ fo pm1 <= fo pm'
    end.
  Proof.
    induction 1 as [|f fs H Hs IH]; intros r pm p pm' q e Hr E; cbn [alternate_from] in E.
    - injection E as -> ->. cbn. auto.
    - destruct r as [q0 v|q0 e0|w]; try discriminate. cbn [recov] in E.
      pose proof (H pm p) as K. destruct (f pm p) as [pm1 r1] eqn:F. destruct K as [K K']. cbn [fst snd] in *.
      pose proof (record_fo pm1 q0 e0) as [A B]. apply ple_off in Hr.
      pose proof (alternate_from_keeps fs Hs r1 (record_failure pt_lt pm1 q0 e0) p K') as [C D]. rewrite E in C. cbn [fst] in C.
      specialize (IH _ _ _ _ _ _ K' E). cbn [rev]. destruct (rev fs) as [|g l]; cbn [app].
      + destruct IH as [-> ->]. split; [lia|]. exists pm, pm1. split; [exact F|lia].
      + destruct IH as [_ IH]. split; [lia|exact IH].
  Qed.

  Lemma alternate_fails (fs : list (gparser val)) : Forall keeps fs -> forall pm p pm' q e,
    alternate pt_lt recov fs pm p = (pm', Failure q e) ->
    exists f l pm0 pm1, rev fs = f :: l /\ f pm0 p = (pm1, Failure q e) /\ fo pm1 <= fo pm' /\
      (2 <= List.length fs -> off p <= fo pm').
  Proof.
    intros H pm p pm' q e E. destruct H as [|f fs H Hs]; cbn [alternate] in E; [discriminate|].
    pose proof (H pm p) as K. destruct (f pm p) as [pm1 r1] eqn:F. destruct K as [K K']. cbn [fst snd] in *.
    pose proof (alternate_from_fails fs Hs r1 pm1 p pm' q e K' E) as A. cbn [rev].
    destruct (rev fs) as [|g l] eqn:R; cbn [app].
    - destruct A as [-> ->]. exists f, [], pm, pm1. repeat split; auto. cbn [List.length].
      apply (f_equal (@List.length _)) in R. rewrite rev_length in R. cbn in R. lia.
    - destruct A as [A (pm0 & pm2 & B & C)]. exists g, (l ++ [f]), pm0, pm2. auto.
  Qed.

  (** The last alternative, as the analysis finds it. *)
  Lemma lst_rev (h : g -> bool) gs y l : rev gs = y :: l ->
    (fix lst (l : list g) := match l with [] => true | [y] => h y | _ :: l' => lst l' end) gs = h y.
  Proof.
    revert y l. induction gs as [|x gs IH]; intros y l E; [discriminate|]. cbn [rev] in E.
    destruct gs as [|z gs]; [cbn in E; now injection E as -> _|].
    destruct (rev (z :: gs)) as [|u v] eqn:R.
    - apply (f_equal (@List.length _)) in R. rewrite rev_length in R. discriminate.
    - cbn [app] in E. injection E as -> _. exact (IH y v eq_refl).
  Qed.

  Lemma steps_nofails rn steps b : (forall x e, nf x = true -> nofails (rn x e)) ->
    forallb (fun s => nf (snd s)) steps = true -> forall e, nofails (run_steps toks rn steps b e).
  Proof.
    intros H. induction steps as [|[pt x] steps IH]; intros N e pm p pm' q er; cbn [run_steps].
    - destruct (beval toks p e b); discriminate.
    - cbn [forallb snd] in N. apply andb_prop in N as [N1 N2]. pose proof (H x e N1 pm p) as Hx.
      destruct (rn x e pm p) as [pm1 [q1 v|q1 e1|w]]; [|exfalso; now eapply Hx|discriminate].
      destruct (bind_pat pt v e); [now apply IH|discriminate].
  Qed.

  Lemma steps_records rn steps b : (forall x e, rc x = true -> records (rn x e)) ->
    forallb (fun s => rc (snd s)) steps = true -> forall e, records (run_steps toks rn steps b e).
  Proof.
    intros H. induction steps as [|[pt x] steps IH]; intros N e pm p pm' q er; cbn [run_steps].
    - destruct (beval toks p e b); discriminate.
    - cbn [forallb snd] in N. apply andb_prop in N as [N1 N2]. pose proof (H x e N1 pm p) as Hx.
      destruct (rn x e pm p) as [pm1 [q1 v|q1 e1|w]]; [|intros [= -> -> ->]; now eapply Hx|discriminate].
      destruct (bind_pat pt v e); [now apply IH|discriminate].
  Qed.

  Lemma steps_shallow rn steps b : (forall x e, nf x = true -> nofails (rn x e)) ->
    (forall x e, sh x = true -> shallow (rn x e)) ->
    (forall e pm p pm' q v, rn GPoint e pm p = (pm', Success q v) -> q = p) ->
    sh (GSeq steps b) = true -> forall e, shallow (run_steps toks rn steps b e).
  Proof.
    intros HN H HP. unfold sh. cbn [shg]. fold sh.
    induction steps as [|[pt x] steps IH]; intros N e pm p pm' q er; cbn [run_steps].
    - destruct (beval toks p e b); discriminate.
    - destruct (is_point x) eqn:P.
      + destruct x; try discriminate P. pose proof (H GPoint e eq_refl pm p) as Hx. pose proof (HP e pm p) as Hq.
        destruct (rn GPoint e pm p) as [pm1 [q1 v|q1 e1|w]]; [|intros [= -> -> ->]; now eapply Hx|discriminate].
        rewrite (Hq _ _ _ eq_refl). destruct (bind_pat pt v e); [now apply IH|discriminate].
      + apply andb_prop in N as [N1 N2]. pose proof (H x e N1 pm p) as Hx.
        destruct (rn x e pm p) as [pm1 [q1 v|q1 e1|w]]; [|intros [= -> -> ->]; now eapply Hx|discriminate].
        destruct (bind_pat pt v e) as [e'|]; [|discriminate]. intros E. exfalso.
        exact (steps_nofails rn steps b HN N2 e' _ _ _ _ _ E).
  Qed.

  Lemma many_nofails f n : nofails (zero_or_more (A:=val) (S:=ambiguity) pt_lt recov n f).
  Proof.
    induction n as [|n IH]; intros pm p pm' q e; cbn [zero_or_more]; [discriminate|].
    destruct (f pm p) as [pm1 [q1 v|q1 e1|w]]; try discriminate.
    pose proof (IH pm1 q1) as K. destruct (zero_or_more pt_lt recov n f pm1 q1) as [pm2 [q2 v2|q2 e2|w2]]; try discriminate.
    exfalso. now eapply K.
  Qed.

  Lemma tailed_nofails s f n : forall l c b, nofails (tailed_loop n s f l c b).
  Proof.
    induction n as [|n IH]; intros l c b pm p pm' q e; cbn [tailed_loop]; [discriminate|].
    destruct (f pm p) as [pm1 [q1 v|q1 e1|w]]; try discriminate.
    destruct (s pm1 q1) as [pm2 [q2 v2|q2 e2|w2]]; try discriminate. apply IH.
  Qed.

  Lemma implicit_nofails s f n : forall l c b, nofails (implicit_loop n s f l c b).
  Proof.
    induction n as [|n IH]; intros l c b pm p pm' q e; cbn [implicit_loop]; [discriminate|].
    destruct (f pm p) as [pm1 [q1 v|q1 e1|w]]; try discriminate.
    destruct (s pm1 q1) as [pm2 [q2 v2|q2 e2|w2]]; try discriminate; [apply IH|].
    destruct (is_implicit_separator v); [apply IH|discriminate].
  Qed.

  Lemma resume_nofails s f n : nofails (resume n s f).
  Proof.
    intros pm p pm' q e. unfold resume.
    destruct (s pm p) as [pm1 [q1 v|q1 e1|w]]; try discriminate.
    destruct (tailed1 n s f pm1 q1) as [pm2 [q2 v2|q2 e2|w2]]; try discriminate. destruct v2; discriminate.
  Qed.

  Lemma tailed1_fails s f n pm p pm' q e : tailed1 n s f pm p = (pm', Failure q e) -> f pm p = (pm', Failure q e).
  Proof.
    unfold tailed1. destruct (f pm p) as [pm1 [q1 v|q1 e1|w]]; try discriminate; auto.
    destruct (s pm1 q1) as [pm2 [q2 v2|q2 e2|w2]]; try discriminate. intros E. exfalso. now apply tailed_nofails in E.
  Qed.

  Lemma optional_nofails f : nofails (optional (A:=val) (S:=ambiguity) pt_lt recov f).
  Proof. intros pm p pm' q e. unfold optional. destruct (f pm p) as [pm1 [q1 v|q1 e1|w]]; discriminate. Qed.

  Lemma map_fails {A B} (f : gparser A) (h : A -> B) pm p pm' q e :
    map_p f h pm p = (pm', Failure q e) -> f pm p = (pm', Failure q e).
  Proof. unfold map_p. destruct (f pm p) as [pm1 [q1 v|q1 e1|w]]; try discriminate. now intros [= -> -> ->]. Qed.

  Lemma nested_nofails o c : nofails (nested toks o c).
  Proof. intros pm p pm' q e. unfold nested. destruct (ex toks p _); discriminate. Qed.

  Lemma tok_shallow m err : shallow (tok toks m err).
  Proof.
    intros pm p pm' q e. unfold tok. destruct (nth_error toks (off p)) as [t|]; [|now intros [= _ <- _]].
    destruct (match sub p with Some n => match split t n with Some (_, b) => Some b | None => None end | None => Some t end); [|discriminate].
    destruct (convert m t0); [discriminate|]. destruct (split t (sub_rank (sub p))) as [[a b]|]; [|now intros [= _ <- _]].
    destruct (convert m a); [discriminate|now intros [= _ <- _]].
  Qed.

  Definition verdicts (x : g) (f : gparser val) : Prop :=
    (nf x = true -> nofails f) /\ (sh x = true -> shallow f) /\ (rc x = true -> records f).

  (** A parser that never fails. *)
  Lemma total x f : nofails f -> verdicts x f.
  Proof. intros H. repeat split; intros _ pm p pm' q e E; exfalso; exact (H _ _ _ _ _ E). Qed.

  (** A parser whose failures are those of another one. *)
  Lemma same_fails x y (f : gparser val) (h : gparser val) :
    (nf x = true -> nf y = true) -> (sh x = true -> sh y = true) -> (rc x = true -> rc y = true) ->
    (forall pm p pm' q e, h pm p = (pm', Failure q e) -> exists e', f pm p = (pm', Failure q e')) ->
    verdicts y f -> verdicts x h.
  Proof.
    intros A B C F (V1 & V2 & V3). split; [|split]; intros K pm p pm' q e E; apply F in E as [e' E].
    - exact (V1 (A K) _ _ _ _ _ E).
    - exact (V2 (B K) _ _ _ _ _ E).
    - exact (V3 (C K) _ _ _ _ _ E).
  Qed.

  Theorem run_verdicts n : forall x e, verdicts x (run table toks n x e).
  Proof.
    induction n as [|n IH]; intros x e; [apply total; intros pm p pm' q er; destruct x; discriminate|].
    destruct x as [mt err|nn| |steps b|gs|y|y|app sep f|sep f|sep f|sep f|o c|y|y|y err|y err|l y|err y|a b|stmt].
    - split; [discriminate|]. split; [|discriminate]. intros _. apply tok_shallow.
    - destruct (rlist_ok nn) as (A & B & C). apply (same_fails _ (table nn) (run table toks n (table nn) [])); auto.
      intros pm p pm' q er E. now exists er.
    - apply total. intros pm p pm' q er. discriminate.
    - split; [|split]; intros K.
      + apply steps_nofails; [|exact K]. intros; now apply IH.
      + apply steps_shallow; auto; try (intros; now apply IH).
        intros e0 pm p pm' q v. destruct n; [discriminate|]. cbn [run]. now intros [= _ <- _].
      + apply steps_records; [|exact K]. intros; now apply IH.
    - assert (KS : Forall keeps (map (fun x => run table toks n x e) gs)).
      { rewrite Forall_map, Forall_forall. intros x _. apply run_keeps. }
      assert (LST : forall pm p pm' q er, run table toks (S n) (GAlt gs) e pm p = (pm', Failure q er) ->
        exists y l pm0 pm1, rev gs = y :: l /\ run table toks n y e pm0 p = (pm1, Failure q er) /\ fo pm1 <= fo pm' /\
          (2 <= List.length gs -> off p <= fo pm')).
      { intros pm p pm' q er E. cbn [run] in E.
        destruct (alternate_fails _ KS _ _ _ _ _ E) as (f & l & pm0 & pm1 & R & F & L & T).
        rewrite map_length in T. rewrite <- map_rev in R. destruct (rev gs) as [|y l']; [discriminate|].
        cbn [map] in R. injection R as <- _. exists y, l', pm0, pm1. auto. }
      split; [|split]; intros K pm p pm' q er E; destruct (LST _ _ _ _ _ E) as (y & l & pm0 & pm1 & R & F & L & T);
        destruct (IH y e) as (V1 & V2 & V3).
      + unfold nf in K. cbn [nfg] in K. rewrite (lst_rev _ _ _ _ R) in K. exact (V1 K _ _ _ _ _ F).
      + unfold sh in K. cbn [shg] in K. rewrite (lst_rev _ _ _ _ R) in K. exact (V2 K _ _ _ _ _ F).
      + unfold rc in K. cbn [rcg] in K. apply orb_prop in K as [K|K].
        * rewrite (lst_rev _ _ _ _ R) in K. pose proof (V3 K _ _ _ _ _ F). lia.
        * apply andb_prop in K as [K1 K2]. apply Nat.leb_le in K1. rewrite (lst_rev _ _ _ _ R) in K2.
          pose proof (V2 K2 _ _ _ _ _ F). specialize (T K1). lia.
    - apply total. intros pm p pm' q er E. cbn [run] in E. apply map_fails in E. now apply optional_nofails in E.
    - apply total. intros pm p pm' q er E. cbn [run] in E. apply map_fails in E. now apply many_nofails in E.
    - apply total. intros pm p pm' q er E. cbn [run] in E.
      destruct (beval toks p e app) as [[]|]; try discriminate. now apply tailed_nofails in E.
    - apply (same_fails _ f (run table toks n f e)); auto. intros pm p pm' q er E. cbn [run] in E.
      apply tailed1_fails in E. now exists er.
    - apply total. intros pm p pm' q er E. cbn [run] in E. now apply resume_nofails in E.
    - apply total. intros pm p pm' q er E. cbn [run] in E. now apply implicit_nofails in E.
    - apply total. intros pm p pm' q er E. cbn [run] in E. now apply nested_nofails in E.
    - apply (same_fails _ y (run table toks n y e)); auto. intros pm p pm' q er E. cbn [run] in E.
      destruct (run table toks n y e pm p) as [pm1 [q1 v|q1 e1|w]]; try discriminate.
      + destruct (ex toks p q1); discriminate.
      + injection E as -> -> ->. now exists er.
    - split; [|split; [|discriminate]].
      + intros K pm p pm' q er E. cbn [run] in E. apply map_fails in E. unfold peek in E.
        pose proof (proj1 (IH y e) K pm p) as N. destruct (run table toks n y e pm p) as [pm1 [q1 v|q1 e1|w]]; try discriminate.
        now eapply N.
      + intros _ pm p pm' q er E. cbn [run] in E. apply map_fails in E. unfold peek in E.
        destruct (run table toks n y e pm p) as [pm1 [q1 v|q1 e1|w]]; try discriminate. now injection E as _ <- _.
    - apply (same_fails _ y (run table toks n y e)); auto. intros pm p pm' q er E. cbn [run] in E.
      destruct (run table toks n y e pm p) as [pm1 [q1 v|q1 e1|w]]; try discriminate.
      injection E as -> -> ->. now exists e1.
    - split; [discriminate|]. split; [|discriminate]. intros K pm p pm' q er E. cbn [run] in E.
      pose proof (proj1 (proj2 (IH y e)) K pm p) as N.
      destruct (run table toks n y e pm p) as [pm1 [q1 v|q1 e1|w]]; try discriminate.
      + destruct v; try discriminate. destruct (into_simple n0); [discriminate|]. now injection E as _ <- _.
      + injection E as -> -> ->. now eapply N.
    - destruct (IH y e) as (V1 & V2 & V3). split; [|split]; intros K pm p pm' q er E; cbn [run] in E; unfold with_amb in E;
        destruct (run table toks n y e (set_amb pm l) p) as [pm1 r1] eqn:R; injection E as <- ->.
      + exact (V1 K _ _ _ _ _ R).
      + exact (V2 K _ _ _ _ _ R).
      + exact (V3 K _ _ _ _ _ R).
    - split; [discriminate|]. split; [|discriminate]. intros K pm p pm' q er E. cbn [run] in E.
      destruct (is_maximum (m_state pm)); [now injection E as _ <- _|]. exact (proj1 (proj2 (IH y e)) K _ _ _ _ _ E).
    - destruct (IH a e) as (V1 & V2 & V3), (IH b e) as (W1 & W2 & W3).
      split; [|split]; intros K; apply andb_prop in K as [K1 K2]; intros pm p pm' q er E; cbn [run] in E;
        destruct (is_ambiguous (m_state pm));
        first [exact (V1 K1 _ _ _ _ _ E)|exact (W1 K2 _ _ _ _ _ E)|exact (V2 K1 _ _ _ _ _ E)
              |exact (W2 K2 _ _ _ _ _ E)|exact (V3 K1 _ _ _ _ _ E)|exact (W3 K2 _ _ _ _ _ E)].
    - split; [discriminate|]. split; discriminate.
  Qed.

  (** * Adding an operator to the yard does not fail *)

  (** Prefix operators, then at most an infix operator and its left operand. *)
  Inductive pend : list (car opk) -> list (car val) -> point -> Prop :=
  | pe_none q : pend [] [] q
  | pe_infix v s e l q : pend [mkCar (OpInfix v) s e] [l] q
  | pe_prefix v s e ops res q : pend ops res s -> ple s q -> pend (mkCar (OpPrefix v) s e :: ops) res q.

  Lemma pend_later ops res q r : pend ops res q -> ple q r -> pend ops res r.
  Proof. intros H L. destruct H; constructor; eauto using ple_trans. Qed.

  Lemma prefix_one res v s e c : ple s (c_ept c) ->
    (exists c', apply_one toks (c :: res) (OpPrefix v) s e = AOk (c' :: res) /\ c_ept c' = c_ept c) \/
    (exists w, apply_one toks (c :: res) (OpPrefix v) s e = AAbort w).
  Proof.
    intros L.
    assert (P : forall x a f,
      (exists c', apply_prefix toks (c :: res) s e x a f = AOk (c' :: res) /\ c_ept c' = c_ept c) \/
      (exists w, apply_prefix toks (c :: res) s e x a f = AAbort w)).
    { intros x a f. unfold apply_prefix. cbn [pop_expression abind]. rewrite (ple_lt _ _ L).
      destruct (ex toks s (c_ept c)); cbn [a_of_b abind]; [left; eexists; split; reflexivity|right; eexists; reflexivity]. }
    destruct v as [| | | | | | | | | |n fs|]; try (right; eexists; reflexivity). cbn [apply_one].
    destruct fs as [|[x| | | | | | | | | | |] fs]; try (right; eexists; reflexivity).
    destruct fs as [|a fs]; try (right; eexists; reflexivity).
    destruct fs as [|[| | | | | | | | | | |en k p] fs]; try (right; eexists; reflexivity).
    destruct fs as [|ws [|? ?]]; try (right; eexists; reflexivity).
    repeat match goal with |- context [String.eqb k ?s] => destruct (String.eqb k s) end;
      unfold apply_maybe_prefix; apply P.
  Qed.

  Lemma infix_one v s e c l :
    (exists c', apply_one toks [c; l] (OpInfix v) s e = AOk [c']) \/
    (exists w, apply_one toks [c; l] (OpInfix v) s e = AAbort w).
  Proof.
    assert (P : forall f,
      (exists c', apply_infix toks [c; l] s e f = AOk [c']) \/ (exists w, apply_infix toks [c; l] s e f = AAbort w)).
    { intros f. unfold apply_infix. cbn [pop_expression abind].
      destruct (ex toks (c_spt l) (c_ept c)); cbn [a_of_b abind]; [left; eexists; reflexivity|right; eexists; reflexivity]. }
    destruct v as [| | | | | | | | | | |en k p]; try (right; eexists; reflexivity). cbn [apply_one].
    repeat match goal with |- context [String.eqb k ?s] => destruct (String.eqb k s) end;
      unfold apply_maybe_infix; cbn [List.length Nat.leb]; apply P.
  Qed.

  Lemma postfix_one v s e c :
    (exists c', apply_one toks [c] (OpPostfix v) s e = AOk [c']) \/
    (exists w, apply_one toks [c] (OpPostfix v) s e = AAbort w).
  Proof.
    assert (P : forall f,
      (exists c', apply_postfix toks [c] s e f = AOk [c']) \/ (exists w, apply_postfix toks [c] s e f = AAbort w)).
    { intros f. unfold apply_postfix. cbn [pop_expression abind].
      destruct (ex toks (c_spt c) e); cbn [a_of_b abind]; [left; eexists; reflexivity|right; eexists; reflexivity]. }
    destruct v as [| | | | | | | | | | |en k p]; try (right; eexists; reflexivity). cbn [apply_one].
    repeat match goal with |- context [String.eqb k ?s] => destruct (String.eqb k s) end; apply P.
  Qed.

  Lemma pend_all ops res q : pend ops res q -> forall c, ple q (c_ept c) ->
    (exists c', apply_all toks ops (c :: res) = AOk [c']) \/ (exists w, apply_all toks ops (c :: res) = AAbort w).
  Proof.
    induction 1 as [q|v s e l q|v s e ops res q P IH L]; intros c C; cbn [apply_all c_val c_spt c_ept].
    - left. eexists. reflexivity.
    - destruct (infix_one v s e c l) as [[c' ->]|[w ->]]; cbn [abind apply_all]; [left|right]; eexists; reflexivity.
    - destruct (prefix_one res v s e c (ple_trans _ _ _ L C)) as [(c' & -> & E)|[w ->]]; cbn [abind].
      + apply IH. rewrite E. eauto using ple_trans.
      + right. eexists. reflexivity.
  Qed.

  Definition yshape (y : yard) (s : estate) (q : point) : Prop :=
    match s with
    | SPrefix | SInfix _ => pend (y_ops y) (y_res y) q
    | SAtom | SAtomLimited => exists c res r, y_res y = c :: res /\ pend (y_ops y) res r /\ ple r (c_ept c)
    | SPostfix => exists v s e c, y = mkYard [mkCar (OpPostfix v) s e] [c]
    end.

  Lemma adapt_shape stmt y s q : yshape y s q -> yshape y (adapt_state stmt y s) q.
  Proof.
    destruct s; cbn [adapt_state]; auto. intros H. destruct stmt; [|exact H].
    destruct (y_ops y) eqn:E; [|exact H]. destruct (rev (y_res y)); [exact H|].
    destruct (may_terminate_statement _); exact H.
  Qed.

  Lemma shape_all y s q : yshape y s q -> (s = SAtom \/ s = SAtomLimited \/ s = SPostfix) ->
    (exists c, apply_all toks (y_ops y) (y_res y) = AOk [c]) \/ (exists w, apply_all toks (y_ops y) (y_res y) = AAbort w).
  Proof.
    intros Y S. destruct S as [->|[->| ->]]; cbn [yshape] in Y.
    1,2: destruct Y as (c & res & r & -> & P & L); now apply (pend_all _ _ r).
    destruct Y as (v & s & e & c & ->). cbn [y_ops y_res apply_all c_val c_spt c_ept].
    destruct (postfix_one v s e c) as [[c' ->]|[w ->]]; cbn [abind]; [left|right]; eexists; reflexivity.
  Qed.

  (** What each kind of operator does to the yard. *)
  Lemma shape_prefix y s q v e : (s = SPrefix \/ exists b, s = SInfix b) -> yshape y s q -> ple q e ->
    exists y', add_op toks y (OpPrefix v) q e = AOk y' /\ yshape y' SPrefix e.
  Proof.
    intros S Y L. assert (P : pend (y_ops y) (y_res y) q) by (destruct S as [->|[b ->]]; exact Y).
    unfold add_op. assert (E : apply_precedence toks (y_ops y) (y_res y) (OpPrefix v) = AOk (mkYard (y_ops y) (y_res y))).
    { destruct (y_ops y) as [|t ops]; [reflexivity|]. cbn [apply_precedence].
      assert (F : should_pop (OpPrefix v) (c_val t) = false) by (destruct (c_val t); reflexivity). now rewrite F. }
    rewrite E. cbn [abind y_ops y_res]. eexists. split; [reflexivity|]. cbn [yshape y_ops y_res]. now constructor.
  Qed.

  Lemma shape_atom y s q v e : (s = SPrefix \/ exists b, s = SInfix b) -> yshape y s q -> ple q e ->
    yshape (add_expression y v q e) SAtom e.
  Proof.
    intros S Y L. assert (P : pend (y_ops y) (y_res y) q) by (destruct S as [->|[b ->]]; exact Y).
    cbn [yshape add_expression y_ops y_res]. exists (mkCar v q e), (y_res y), q. auto.
  Qed.

  Lemma shape_after y s q o e : (s = SAtom \/ s = SAtomLimited \/ s = SPostfix) -> yshape y s q ->
    (exists v, o = OpInfix v \/ o = OpPostfix v) ->
    (exists y', add_op toks y o q e = AOk y' /\
       match o with OpInfix _ => forall b, yshape y' (SInfix b) e | _ => yshape y' SPostfix e end) \/
    (exists w, add_op toks y o q e = AAbort w).
  Proof.
    intros S Y [v Ho]. unfold add_op.
    assert (E : forall ops res, apply_precedence toks ops res o = abind (apply_all toks ops res) (fun r => AOk (mkYard [] r))).
    { induction ops as [|t ops IH]; intros res; [reflexivity|]. cbn [apply_precedence apply_all].
      assert (F : should_pop o (c_val t) = true) by (destruct Ho as [->| ->]; destruct (c_val t); reflexivity).
      rewrite F. destruct (apply_one toks res (c_val t) (c_spt t) (c_ept t)); cbn [abind]; auto. }
    rewrite E. destruct (shape_all y s q Y S) as [[c ->]|[w ->]]; cbn [abind y_ops y_res].
    - left. eexists. split; [reflexivity|]. destruct Ho as [->| ->].
      + intros b. constructor.
      + cbn [yshape]. eauto.
    - right. eexists. reflexivity.
  Qed.
End Run.
