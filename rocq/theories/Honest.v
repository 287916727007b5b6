(** An expectation is never about the token that is there: every failure that is
    recorded or returned asks for something else. *)

From Coq Require Import String List Arith Bool Lia.
From Verif Require Import Base Peresil Token Schema Value Nt Grammar Table Static Rel Reach Expect Lib.
Import ListNotations.
Local Open Scope string_scope.
Local Open Scope list_scope.
Local Open Scope nat_scope.

(** * The static check *)

(** The error of a token parser asks for what the parser matches. *)
Definition asks (m : matcher) (e : perror) : bool :=
  match m with
  | MK k => match named e with Some k' => tkind_eqb k' k | None => false end
  | MNumber => match e with ExpectedNumber => true | _ => false end
  end.

(** The token parser that fails last. *)
Fixpoint last_tok (x : g) : option matcher :=
  match x with
  | GTok m _ => Some m
  | GSeq [(_, y)] _ => last_tok y
  | GAlt gs => (fix lst (l : list g) := match l with [] => None | [y] => last_tok y | _ :: l' => lst l' end) gs
  | _ => None
  end.

Fixpoint apt (x : g) : bool :=
  match x with
  | GTok m e => asks m e
  | GNT _ | GPoint | GNested _ _ | GShunt _ => true
  | GSeq steps _ => forallb (fun s => apt (snd s)) steps
  | GAlt gs => forallb apt gs
  | GOpt y | GMany y | GExt y | GAmb _ y => apt y
  | GTailed _ a b | GTailed1 a b | GImplicit a b | GIfAmb a b | GResume a b => apt a && apt b
  | GPeek y => apt y && is_tok y
  | GMapErr y e => apt y && match last_tok y with Some m => asks m e | None => false end
  | GSimple y e => apt y && match y, e with GTok MNumber _, ExpectedNumber => true | _, _ => false end
  | GIfMax e y => apt y && match e with BlockNotAllowedHere => true | _ => false end
  end.

Lemma apt_checked : forallb (fun n => apt (table n)) all_nts = true.
Proof. vm_compute. reflexivity. Qed.

Lemma table_apt n : apt (table n) = true.
Proof. pose proof apt_checked as H. rewrite forallb_forall in H. apply H, all_nts_complete. Qed.

Lemma compound_split t : compound t = false -> forall n, split t n = None.
Proof. destruct t as [k [s e]|n]; [|reflexivity]. destruct k; try discriminate; reflexivity. Qed.

Section Honest.
  Variable toks : list token.

  (** What a failure at a point says of the token there. *)
  Definition hon (q : point) (e : perror) : Prop :=
    forall t, nth_error toks (off q) = Some t -> compound t = false -> fits e t = false.

  Definition hpm (pm : pm_t) : Prop := Forall (hon (f_point (m_failures pm))) (f_kinds (m_failures pm)).

  Definition hres {A} (x : pm_t * progress point A perror) : Prop :=
    hpm (fst x) /\ match snd x with Failure q e => hon q e | _ => True end.

  Definition honest {A} (f : gparser A) : Prop := forall pm p, hpm pm -> hres (f pm p).

  Lemma same_point p q : pt_lt p q = false -> pt_lt q p = false -> p = q.
  Proof.
    unfold pt_lt. destruct p as [o s], q as [o' s']. cbn [off sub].
    destruct (o <? o') eqn:A; [discriminate|]. destruct (o' <? o) eqn:B.
    - intros _ C. discriminate C.
    - apply Nat.ltb_ge in A, B. replace (o =? o') with true by (symmetry; apply Nat.eqb_eq; lia).
      replace (o' =? o) with true by (symmetry; apply Nat.eqb_eq; lia). intros C D.
      apply Nat.ltb_ge in C, D. assert (o = o') as -> by lia. f_equal.
      destruct s, s'; cbn in C, D; try lia; f_equal; lia.
  Qed.

  Lemma record_hon pm p e : hpm pm -> hon p e -> hpm (record_failure pt_lt pm p e).
  Proof.
    intros H E. unfold hpm, record_failure, add_failure. cbn [m_failures].
    destruct (pt_lt p (f_point (m_failures pm))) eqn:A; [exact H|].
    destruct (pt_lt (f_point (m_failures pm)) p) eqn:B; cbn [f_point f_kinds].
    - constructor; [exact E|constructor].
    - apply Forall_app. split; [exact H|]. constructor; [|constructor].
      rewrite (same_point _ _ B A). exact E.
  Qed.

  Ltac hgo H HP :=
    match goal with |- context [?f ?pm ?p] =>
      pose proof (H pm p HP) as [? ?]; destruct (f pm p) as [? [? ?|? ?|?]]; cbn [fst snd] in * end.

  Lemma hsucc {A} pm q (v : A) : hpm pm -> hres (pm, Success q v).
  Proof. split; cbn; auto. Qed.

  Lemma hfail {A} pm q e : hpm pm -> hon q e -> hres (A:=A) (pm, Failure q e).
  Proof. split; cbn; auto. Qed.

  Lemma habort {A} pm w : hpm pm -> hres (A:=A) (pm, Abort w).
  Proof. split; cbn; auto. Qed.

  Local Hint Resolve hsucc hfail habort record_hon : hon.

  Lemma map_honest {A B} (f : gparser A) (h : A -> B) : honest f -> honest (map_p f h).
  Proof. intros H pm p P. unfold map_p. pose proof (H pm p P) as [K L]. destruct (f pm p) as [pm1 [q v|q e|w]]; cbn [fst snd] in *; auto with hon. Qed.

  Lemma optional_honest f : honest (A:=val) f -> honest (optional pt_lt recov f).
  Proof.
    intros H pm p P. unfold optional. pose proof (H pm p P) as [K L].
    destruct (f pm p) as [pm1 [q v|q e|w]]; cbn [fst snd recov] in *; auto with hon.
  Qed.

  Lemma many_honest f : honest (A:=val) f -> forall n, honest (zero_or_more pt_lt recov n f).
  Proof.
    intros H n. induction n as [|n IH]; intros pm p P; cbn [zero_or_more]; [auto with hon|].
    pose proof (H pm p P) as [K L]. destruct (f pm p) as [pm1 [q v|q e|w]]; cbn [fst snd recov] in *; auto with hon.
    pose proof (IH pm1 q K) as [K' L']. destruct (zero_or_more pt_lt recov n f pm1 q) as [pm2 [q2 v2|q2 e2|w2]];
      cbn [fst snd] in *; auto with hon.
  Qed.

  Lemma alternate_from_honest (fs : list (gparser val)) : Forall honest fs -> forall r pm p,
    hres (pm, r) -> hres (alternate_from pt_lt recov r fs pm p).
  Proof.
    induction 1 as [|f fs H Hs IH]; intros r pm p R; cbn [alternate_from]; [exact R|].
    destruct r as [q v|q e|w]; try exact R. cbn [recov]. destruct R as [R1 R2]. cbn [fst snd] in *.
    pose proof (H pm p R1) as [K L]. destruct (f pm p) as [pm1 r1]. cbn [fst snd] in *.
    apply IH. split; cbn [fst snd]; auto with hon.
  Qed.

  Lemma alternate_honest (fs : list (gparser val)) : Forall honest fs -> honest (alternate pt_lt recov fs).
  Proof.
    intros H pm p P. destruct H as [|f fs H Hs]; cbn [alternate]; [auto with hon|].
    pose proof (H pm p P) as R. destruct (f pm p) as [pm1 r1]. now apply alternate_from_honest.
  Qed.

  Lemma tailed_honest s f : honest s -> honest f -> forall n l c b, honest (tailed_loop n s f l c b).
  Proof.
    intros S F n. induction n as [|n IH]; intros l c b pm p P; cbn [tailed_loop]; [auto with hon|].
    pose proof (F pm p P) as [K L]. destruct (f pm p) as [pm1 [q v|q e|w]]; cbn [fst snd] in *; auto with hon.
    pose proof (S pm1 q K) as [K' L']. destruct (s pm1 q) as [pm2 [q2 v2|q2 e2|w2]]; cbn [fst snd] in *; auto with hon.
    now apply IH.
  Qed.

  Lemma tailed1_honest s f : honest s -> honest f -> forall n, honest (tailed1 n s f).
  Proof.
    intros S F n pm p P. unfold tailed1.
    pose proof (F pm p P) as [K L]. destruct (f pm p) as [pm1 [q v|q e|w]]; cbn [fst snd] in *; auto with hon.
    pose proof (S pm1 q K) as [K' L']. destruct (s pm1 q) as [pm2 [q2 v2|q2 e2|w2]]; cbn [fst snd] in *; auto with hon.
    now apply tailed_honest.
  Qed.

  Lemma resume_honest s f : honest s -> honest f -> forall n, honest (resume n s f).
  Proof.
    intros S F n pm p P. unfold resume.
    pose proof (S pm p P) as [K L]. destruct (s pm p) as [pm1 [q v|q e|w]]; cbn [fst snd] in *; auto with hon.
    pose proof (tailed1_honest s f S F n pm1 q K) as [K' L'].
    destruct (tailed1 n s f pm1 q) as [pm2 [q2 v2|q2 e2|w2]]; cbn [fst snd] in *; auto with hon.
    destruct v2; auto with hon.
  Qed.

  Lemma implicit_honest s f : honest s -> honest f -> forall n l c b, honest (implicit_loop n s f l c b).
  Proof.
    intros S F n. induction n as [|n IH]; intros l c b pm p P; cbn [implicit_loop]; [auto with hon|].
    pose proof (F pm p P) as [K L]. destruct (f pm p) as [pm1 [q v|q e|w]]; cbn [fst snd] in *; auto with hon.
    pose proof (S pm1 q K) as [K' L']. destruct (s pm1 q) as [pm2 [q2 v2|q2 e2|w2]]; cbn [fst snd] in *; auto with hon.
    - now apply IH.
    - destruct (is_implicit_separator v); [now apply IH|auto with hon].
  Qed.

  Lemma with_amb_honest l f : honest f -> honest (with_amb l f).
  Proof.
    intros F pm p P. unfold with_amb. pose proof (F (set_amb pm l) p P) as [K L].
    destruct (f (set_amb pm l) p) as [pm1 r]. split; [exact K|exact L].
  Qed.

  (** A token parser that fails does not match the token. *)
  Lemma tok_fails m err pm p pm' q e : tok toks m err pm p = (pm', Failure q e) ->
    pm' = pm /\ q = p /\ e = err /\ (forall t, nth_error toks (off p) = Some t -> compound t = false -> convert m t = None).
  Proof.
    unfold tok. destruct (nth_error toks (off p)) as [t|] eqn:N; [|intros [= <- <- <-]; repeat split; discriminate].
    destruct (compound t) eqn:C.
    - assert (R : forall t', Some t = Some t' -> compound t' = false -> convert m t' = None) by congruence.
      destruct (match sub p with Some n => match split t n with Some (_, b) => Some b | None => None end | None => Some t end); [|discriminate].
      destruct (convert m t0); [discriminate|]. destruct (split t (sub_rank (sub p))) as [[a b]|];
        [destruct (convert m a); [discriminate|]|]; intros [= <- <- <-]; auto.
    - rewrite (compound_split t C). destruct (sub p) as [n|]; [rewrite (compound_split t C); discriminate|].
      destruct (convert m t) eqn:D; [discriminate|]. intros [= <- <- <-]. repeat split. intros t' [= <-] _. exact D.
  Qed.

  Lemma asks_hon m e p : asks m e = true ->
    (forall t, nth_error toks (off p) = Some t -> compound t = false -> convert m t = None) -> hon p e.
  Proof.
    intros A H t T S. specialize (H t T S). destruct m as [k|], t as [k' x|n]; cbn in *; try reflexivity.
    - destruct (named e) as [k2|]; [|reflexivity]. apply tkind_eqb_eq in A. subst k2.
      destruct (tkind_eqb k k'); [discriminate|reflexivity].
    - destruct e; try reflexivity. discriminate A.
    - destruct e; try discriminate A. reflexivity.
    - discriminate H.
  Qed.

  Lemma tok_honest m e : asks m e = true -> honest (tok toks m e).
  Proof.
    intros A pm p P. destruct (tok toks m e pm p) as [pm' [q v|q e'|w]] eqn:T.
    - enough (pm' = pm) as -> by auto with hon. revert T. unfold tok.
      repeat match goal with |- context [match ?x with _ => _ end] => destruct x end; now intros [=].
    - apply tok_fails in T as (-> & -> & -> & C). apply hfail; [exact P|]. now apply (asks_hon m).
    - enough (pm' = pm) as -> by auto with hon. revert T. unfold tok.
      repeat match goal with |- context [match ?x with _ => _ end] => destruct x end; now intros [=].
  Qed.

  Lemma steps_honest rn steps b : (forall x e, apt x = true -> honest (rn x e)) ->
    forallb (fun s => apt (snd s)) steps = true -> forall e, honest (run_steps toks rn steps b e).
  Proof.
    intros H. induction steps as [|[pt x] steps IH]; intros A e pm p P; cbn [run_steps].
    - destruct (beval toks p e b); auto with hon.
    - cbn [forallb snd] in A. apply andb_prop in A as [A1 A2]. pose proof (H x e A1 pm p P) as [K L].
      destruct (rn x e pm p) as [pm1 [q v|q er|w]]; cbn [fst snd] in *; auto with hon.
      destruct (bind_pat pt v e); [now apply IH|auto with hon].
  Qed.

  (** The parser that fails last decides. *)
  Lemma last_fails n : forall x m, last_tok x = Some m -> forall e pm p pm' q er,
    run table toks n x e pm p = (pm', Failure q er) ->
    q = p /\ (forall t, nth_error toks (off p) = Some t -> compound t = false -> convert m t = None).
  Proof.
    induction n as [|n IH]; intros x m L e pm p pm' q er R; [destruct x; discriminate R|].
    destruct x as [mt err|nn| |steps b|gs|y|y|app sep f|sep f|sep f|sep f|o c|y|y|y err|y err|l y|err y|a b|stmt];
      try discriminate L; cbn [run] in R.
    - injection L as ->. apply tok_fails in R as (_ & -> & _ & C). auto.
    - cbn [last_tok] in L. destruct steps as [|[pt y] [|]]; try discriminate L. cbn [run_steps] in R.
      destruct (run table toks n y e pm p) as [pm1 [q1 v|q1 e1|w]] eqn:Y.
      + destruct (bind_pat pt v e); [|discriminate]. destruct (beval toks q1 e0 b); discriminate.
      + injection R as -> -> ->. exact (IH y m L _ _ _ _ _ _ Y).
      + discriminate.
    - assert (KS : Forall keeps (map (fun x => run table toks n x e) gs)).
      { rewrite Forall_map, Forall_forall. intros x _. apply run_keeps. }
      destruct (alternate_fails _ KS _ _ _ _ _ R) as (f & l & pm0 & pm1 & E & F & _).
      rewrite <- map_rev in E. destruct (rev gs) as [|y l'] eqn:G; [discriminate|].
      cbn [map] in E. injection E as <- _. apply (IH y m) with (2 := F). clear -L G.
      cbn [last_tok] in L. revert y l' G. induction gs as [|x gs IH]; intros y l' G; [discriminate|].
      cbn [rev] in G. destruct gs as [|z gs]; [cbn in G; now injection G as -> _|].
      destruct (rev (z :: gs)) as [|u v] eqn:R.
      + apply (f_equal (@List.length _)) in R. rewrite rev_length in R. discriminate.
      + cbn [app] in G. injection G as -> _. now apply (IH L y v).
  Qed.

  (** * The yard only complains about a missing expression *)
  Definition aexp {A} (r : ares A) : Prop := match r with AErr _ e => e = ExpectedExpression | _ => True end.

  Lemma aexp_bind {A B} (r : ares A) (k : A -> ares B) : aexp r -> (forall a, aexp (k a)) -> aexp (abind r k).
  Proof. destruct r; cbn; auto. Qed.

  Lemma aexp_b {A} (r : bres A) : aexp (a_of_b r).
  Proof. destruct r; exact I. Qed.

  Lemma pop_exp res loc : aexp (pop_expression res loc).
  Proof. destruct res; cbn; auto. Qed.

  Local Hint Resolve aexp_b pop_exp : hon.

  Lemma prefix_exp res s e x a f : aexp (apply_prefix toks res s e x a f).
  Proof.
    unfold apply_prefix. apply aexp_bind; [auto with hon|]. intros [c r]. destruct (pt_lt (c_ept c) s); [reflexivity|].
    apply aexp_bind; [auto with hon|]. intros; exact I.
  Qed.

  Lemma infix_exp res s e f : aexp (apply_infix toks res s e f).
  Proof.
    unfold apply_infix. apply aexp_bind; [auto with hon|]. intros [c r]. apply aexp_bind; [auto with hon|]. intros [c' r'].
    apply aexp_bind; [auto with hon|]. intros; exact I.
  Qed.

  Lemma postfix_exp res s e f : aexp (apply_postfix toks res s e f).
  Proof.
    unfold apply_postfix. apply aexp_bind; [auto with hon|]. intros [c r].
    apply aexp_bind; [auto with hon|]. intros; exact I.
  Qed.

  Lemma maybe_prefix_exp res s e x a f : aexp (apply_maybe_prefix toks res s e x a f).
  Proof.
    unfold apply_maybe_prefix. destruct res; [|apply prefix_exp].
    apply aexp_bind; [auto with hon|]. intros; exact I.
  Qed.

  Lemma maybe_infix_exp res s e f : aexp (apply_maybe_infix toks res s e f).
  Proof.
    unfold apply_maybe_infix. destruct (List.length res <=? 1); [|apply infix_exp].
    apply aexp_bind; [auto with hon|]. intros [c r]. apply aexp_bind; [auto with hon|]. intros; exact I.
  Qed.

  Local Hint Resolve prefix_exp infix_exp postfix_exp maybe_prefix_exp maybe_infix_exp : hon.

  Lemma apply_one_exp res o s e : aexp (apply_one toks res o s e).
  Proof.
    unfold apply_one.
    repeat match goal with |- aexp (match ?x with _ => _ end) => destruct x; try exact I end; auto with hon.
  Qed.

  Lemma precedence_exp o ops : forall res, aexp (apply_precedence toks ops res o).
  Proof.
    induction ops as [|top ops IH]; intros res; cbn [apply_precedence]; [exact I|].
    destruct (should_pop o (c_val top)); [|exact I]. apply aexp_bind; [apply apply_one_exp|auto].
  Qed.

  Lemma all_exp ops : forall res, aexp (apply_all toks ops res).
  Proof.
    induction ops as [|top ops IH]; intros res; cbn [apply_all]; [exact I|].
    apply aexp_bind; [apply apply_one_exp|auto].
  Qed.

  Lemma add_op_exp y o s e : aexp (add_op toks y o s e).
  Proof. unfold add_op. apply aexp_bind; [apply precedence_exp|intros; exact I]. Qed.

  Lemma finish_exp y p : aexp (finish_yard toks y p).
  Proof. unfold finish_yard. apply aexp_bind; [apply all_exp|]. intros [|c [|]]; cbn; auto. Qed.

  Lemma hon_exp p : hon p ExpectedExpression.
  Proof. intros t _ _. destruct t; reflexivity. Qed.

  Lemma shunt_honest f1 f2 f3 stmt : honest f1 -> honest f2 -> honest f3 -> forall n y s,
    honest (shunt_loop toks n f1 f2 f3 stmt y s).
  Proof.
    intros H1 H2 H3 n. induction n as [|n IH]; intros y s pm p P; [cbn; auto with hon|].
    rewrite shunt_loop_S. cbv zeta.
    assert (FIN : forall pm1 q, hpm pm1 -> hres (finish_progress pm1 (finish_yard toks y q))).
    { intros pm1 q K. pose proof (finish_exp y q) as F.
      destruct (finish_yard toks y q) as [c|r e|w]; cbn in F |- *; auto with hon. subst e. apply hfail; [exact K|apply hon_exp]. }
    assert (ADD : forall pm1 o nx q, hpm pm1 ->
      hres match add_op toks y o p q with
             | AOk y' => shunt_loop toks n f1 f2 f3 stmt y' (adapt_state stmt y' nx) pm1 q
             | AErr q e => (pm1, Failure q e)
             | AAbort w => (pm1, Abort w)
             end).
    { intros pm1 o nx q K. pose proof (add_op_exp y o p q) as F.
      destruct (add_op toks y o p q) as [y'|r e|w]; cbn in F; auto with hon; [now apply IH|].
      subst e. apply hfail; [exact K|apply hon_exp]. }
    assert (PA : forall pm1 v q, hpm pm1 ->
      hres (on_prefix_or_atom v
          (fun op => match add_op toks y (OpPrefix op) p q with
             | AOk y' => shunt_loop toks n f1 f2 f3 stmt y' (adapt_state stmt y' SPrefix) pm1 q
             | AErr q e => (pm1, Failure q e)
             | AAbort w => (pm1, Abort w)
             end)
          (fun v => shunt_loop toks n f1 f2 f3 stmt (add_expression y v p q)
             (adapt_state stmt (add_expression y v p q) SAtom) pm1 q) (pm1, Abort IllTyped))).
    { intros pm1 v q K. destruct v as [| | | | | | | | | | |en k v]; cbn [on_prefix_or_atom]; auto with hon.
      destruct (String.eqb k "Prefix"); [now apply ADD|].
      destruct (String.eqb k "Atom"); [now apply IH|auto with hon]. }
    assert (IP : forall pm1 v q, hpm pm1 ->
      hres (on_infix_or_postfix v
          (fun op => match add_op toks y (OpInfix op) p q with
             | AOk y' => shunt_loop toks n f1 f2 f3 stmt y' (adapt_state stmt y' (SInfix (is_range op))) pm1 q
             | AErr q e => (pm1, Failure q e)
             | AAbort w => (pm1, Abort w)
             end)
          (fun op => match add_op toks y (OpPostfix op) p q with
             | AOk y' => shunt_loop toks n f1 f2 f3 stmt y' (adapt_state stmt y' SPostfix) pm1 q
             | AErr q e => (pm1, Failure q e)
             | AAbort w => (pm1, Abort w)
             end) (pm1, Abort IllTyped))).
    { intros pm1 v q K. destruct v as [| | | | | | | | | | |en k v]; cbn [on_infix_or_postfix]; auto with hon.
      destruct (String.eqb k "Infix"); [now apply ADD|].
      destruct (String.eqb k "Postfix"); [now apply ADD|auto with hon]. }
    destruct s as [|wr| | |].
    - hgo H1 P; [now apply PA|now apply FIN|auto with hon].
    - destruct (is_ambiguous (m_state pm) && wr).
      + pose proof (with_amb_honest Maximum f1 H1) as H1'. hgo H1' P; [now apply PA|now apply FIN|auto with hon].
      + hgo H1 P; [now apply PA|now apply FIN|auto with hon].
    - hgo H2 P; [now apply IP|now apply FIN|auto with hon].
    - hgo H2 P; [now apply IP|now apply FIN|auto with hon].
    - hgo H3 P; [now apply ADD|now apply FIN|auto with hon].
  Qed.

  Theorem run_honest n : forall x e, apt x = true -> honest (run table toks n x e).
  Proof.
    induction n as [|n IH]; intros x e A pm p P; [destruct x; cbn; auto with hon|].
    destruct x as [mt err|nn| |steps b|gs|y|y|app sep f|sep f|sep f|sep f|o c|y|y|y err|y err|l y|err y|a b|stmt];
      cbn [run]; cbn [apt] in A.
    - now apply tok_honest.
    - apply IH; [apply table_apt|exact P].
    - auto with hon.
    - now apply steps_honest.
    - apply alternate_honest; [|exact P]. rewrite Forall_map, Forall_forall. intros x I. apply IH.
      rewrite forallb_forall in A. now apply A.
    - apply map_honest; [|exact P]. now apply optional_honest, IH.
    - apply map_honest; [|exact P]. now apply many_honest, IH.
    - apply andb_prop in A as [A1 A2]. destruct (beval toks p e app) as [[]|]; auto with hon. apply tailed_honest; auto.
    - apply andb_prop in A as [A1 A2]. apply tailed1_honest; auto.
    - apply andb_prop in A as [A1 A2]. apply resume_honest; auto.
    - apply andb_prop in A as [A1 A2]. apply implicit_honest; auto.
    - unfold nested. destruct (ex toks p _); auto with hon.
    - pose proof (IH y e A pm p P) as [K L]. destruct (run table toks n y e pm p) as [pm1 [q v|q er|w]]; cbn [fst snd] in *; auto with hon.
      destruct (ex toks p q); auto with hon.
    - apply andb_prop in A as [A T]. apply map_honest; [|exact P]. clear pm p P. intros pm p P. unfold peek.
      pose proof (IH y e A pm p P) as [K L]. destruct (run table toks n y e pm p) as [pm1 [q v|q er|w]] eqn:R; cbn [fst snd] in *; auto with hon.
      apply hfail; [exact K|]. destruct y; try discriminate T.
      now destruct (last_fails n (GTok m e0) m eq_refl _ _ _ _ _ _ R) as [-> _].
    - apply andb_prop in A as [A T]. destruct (last_tok y) as [m|] eqn:LT; [|discriminate].
      pose proof (IH y e A pm p P) as [K L]. destruct (run table toks n y e pm p) as [pm1 [q v|q er|w]] eqn:R; cbn [fst snd] in *; auto with hon.
      destruct (last_fails n _ _ LT _ _ _ _ _ _ R) as [-> C]. apply hfail; [exact K|]. now apply (asks_hon m).
    - apply andb_prop in A as [A T]. destruct y as [[k|] er'| | | | | | | | | | | | | | | | | | |]; try discriminate T.
      pose proof (IH (GTok MNumber er') e A pm p P) as [K L].
      destruct (run table toks n (GTok MNumber er') e pm p) as [pm1 [q v|q er|w]] eqn:R; cbn [fst snd] in *; auto with hon.
      destruct v; auto with hon. destruct (into_simple n0) as [r|] eqn:IS; auto with hon.
      apply hfail; [exact K|]. intros t N S. destruct n as [|n]; [discriminate|]. cbn [run] in R. unfold tok in R.
      rewrite N, !(compound_split t S) in R. destruct (sub p) as [i|]; [rewrite (compound_split t S) in R; discriminate|]. destruct t as [k x|n1]; [destruct err; try discriminate T; reflexivity|].
      cbn [convert] in R. injection R as _ _ <-. cbn [fits]. rewrite IS. destruct err; reflexivity.
    - now apply with_amb_honest; [apply IH|].
    - apply andb_prop in A as [A T]. destruct (is_maximum (m_state pm)); [|now apply IH].
      apply hfail; [exact P|]. intros t _ _. destruct err; try discriminate T. destruct t; reflexivity.
    - apply andb_prop in A as [A1 A2]. destruct (is_ambiguous (m_state pm)); now apply IH.
    - apply shunt_honest; auto; apply IH; reflexivity.
  Qed.

  (** A whole file. *)
  Lemma items_honest : forall n pm pt l es, hpm pm -> items_loop toks n pm pt = ItemsErr l es ->
    exists q t, nth_error toks (off q) = Some t /\ l = fst (token_extent t) /\ Forall (hon q) es.
  Proof.
    intros n. induction n as [|n IH]; intros pm pt l es P; cbn [items_loop]; [discriminate|].
    destruct (match nth_error toks (off pt) with Some t => is_kind KEndOfFile t | None => true end); [discriminate|].
    pose proof (run_honest (parse_fuel (List.length toks)) item_grammar [] eq_refl pm pt P) as [K L].
    destruct (run table toks (parse_fuel (List.length toks)) item_grammar [] pm pt) as [pm1 [q v|q e|w]]; cbn [finish fst snd] in *;
      [| |discriminate].
    - destruct (off pt <? off q); [|discriminate].
      destruct (items_loop toks n pm1 q) as [vs|l' es'|w] eqn:I; try discriminate. intros [= <- <-]. eapply IH; eauto.
    - cbv zeta. destruct (nth_error toks (off (f_point (add_failure pt_lt (m_failures pm1) q e)))) as [t|] eqn:T; [|discriminate].
      intros [= <- <-]. eexists _, t. split; [exact T|]. split; [reflexivity|].
      exact (record_hon pm1 q e K L).
  Qed.
End Honest.
