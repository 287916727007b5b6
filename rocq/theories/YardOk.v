(** The parser follows the rules for expressions with operators: the shunting yard. *)

From Coq Require Import String List NArith Arith Bool Lia.
From Verif Require Import Base Peresil Token Schema Value Nt Grammar Points Table Static Amb Sem First OutlineSpec Reads Syntax UseSpec UseOk RustSpec Rules NestedOk TypesOk BoundsOk ItemsOk MembersOk PatternsOk AtomsOk.
Import ListNotations.
Local Open Scope string_scope.
Local Open Scope list_scope.
Local Open Scope nat_scope.

(** * Reading moves forward *)
Definition after_point (p q : point) : Prop := off p < off q \/ off p = off q /\ sub_rank (sub p) <= sub_rank (sub q).

Lemma after_trans p q r : after_point p q -> after_point q r -> after_point p r.
Proof. unfold after_point. lia. Qed.
Lemma after_not_lt p q : after_point p q -> pt_lt q p = false.
Proof.
  intros A. unfold pt_lt. destruct (Nat.ltb_spec (off q) (off p)); [unfold after_point in A; lia|].
  destruct (Nat.eqb_spec (off q) (off p)); [|reflexivity]. apply Nat.ltb_ge. unfold after_point in A. lia.
Qed.

Section Forward.
  Variable toks : list token.
  Lemma gets_after p m q v : gets toks p m q v -> after_point p q.
  Proof.
    intros G. specialize (G ExpectedNumber (mkMaster (mkFailures pt_zero []) Unambiguous)). revert G. generalize (mkMaster (mkFailures pt_zero []) Unambiguous : pm_t). intros pm G. unfold tok in G.
    destruct (nth_error toks (off p)) as [t|]; [|discriminate].
    assert (L : forall v', (pm, Success (mkPt (off p + 1) None) v' : presult) = (pm, Success q v) -> after_point p q).
    { intros v' E. injection E as <- _. left. cbn [off]. lia. }
    destruct (match sub p with Some n => match split t n with Some (_, b) => Some b | None => None end | None => Some t end) as [c|]; [|discriminate].
    destruct (convert m c); [eapply L; exact G|].
    destruct (split t (sub_rank (sub p))) as [[a b]|]; [|discriminate]. destruct (convert m a); [|discriminate].
    injection G as <- _. right. cbn [off sub sub_rank]. lia.
  Qed.
  Lemma takes_after p c q : takes toks p c q -> after_point p q.
  Proof.
    destruct c; cbn [takes]; [intros (x & G)|intros G|intros G|intros (S & N & ->)]; try (eapply gets_after; exact G).
    left. cbn [off at_]. lia.
  Qed.
  Lemma reads_after p ps q : reads toks p ps q -> after_point p q.
  Proof.
    revert p. induction ps as [|c ps IH]; intros p R; cbn [reads] in R; [subst; right; lia|].
    destruct R as (r & T & R). eapply after_trans; [eapply takes_after; exact T|apply IH; exact R].
  Qed.
End Forward.

(** * The stacks *)
Section Yard.
  Variable toks : list token.

  Definition left_operator (o : opk) : bool := match o with OpPrefix _ => false | _ => true end.

  Lemma pops_left o ops res : left_operator o = true ->
    apply_precedence toks ops res o = abind (apply_all toks ops res) (fun r => AOk (mkYard [] r)).
  Proof.
    intros L. revert res. induction ops as [|top ops IH]; intros res; [reflexivity|]. cbn [apply_precedence apply_all].
    assert (P : should_pop o (c_val top) = true) by (destruct o; [discriminate| |]; destruct (c_val top); reflexivity).
    rewrite P. destruct (apply_one toks res (c_val top) (c_spt top) (c_ept top)); cbn [abind]; auto.
  Qed.
  Lemma pops_none o ops res : apply_precedence toks ops res (OpPrefix o) = AOk (mkYard ops res).
  Proof. destruct ops as [|top ops]; [reflexivity|]. cbn [apply_precedence]. destruct (c_val top); reflexivity. Qed.

  (** The yard holds one expression, spelled from [p] to [q]. *)
  Definition complete (y : yard) (w : val) (p q : point) : Prop :=
    ayields (apply_all toks (y_ops y) (y_res y)) [mkCar w p q].

  Lemma add_left y o s e w p q : left_operator o = true -> complete y w p q ->
    ayields (add_op toks y o s e) (mkYard [mkCar o s e] [mkCar w p q]).
  Proof.
    unfold complete, add_op. intros L C. rewrite (pops_left _ _ _ L). destruct (apply_all toks (y_ops y) (y_res y)); cbn in *; [now subst|auto|exact I].
  Qed.
  Lemma add_prefix y o s e : ayields (add_op toks y (OpPrefix o) s e) (mkYard (mkCar (OpPrefix o) s e :: y_ops y) (y_res y)).
  Proof. unfold add_op. rewrite pops_none. reflexivity. Qed.

  Lemma finish_complete y w p q r : complete y w p q -> ayields (finish_yard toks y r) (mkCar w p q).
  Proof.
    unfold complete, finish_yard. destruct (apply_all toks (y_ops y) (y_res y)); cbn [ayields abind]; auto. intros ->. reflexivity.
  Qed.

  (** One more operand. *)
  Definition adds (y : yard) (w : val) (p q : point) (y' : yard) : Prop :=
    forall r, ayields (apply_all toks (y_ops y) (mkCar w p q :: y_res y)) r -> ayields (apply_all toks (y_ops y') (y_res y')) r.

  Definition ext_of (s e : point) : extent := match ex toks s e with BOk x => x | BAbort _ => (0, 0) end.

  Lemma ex_bind {A} s e (f : extent -> ares A) (a : A) : ayields (f (ext_of s e)) a -> ayields (abind (a_of_b (ex toks s e)) f) a.
  Proof. unfold ext_of. destruct (ex toks s e); cbn [a_of_b abind]; [auto|intros; exact I]. Qed.
End Yard.

(** ** Applying operators *)
Lemma outline_var w n k p : outline w = VVar n k p -> exists p', w = VVar n k p' /\ outline p' = p.
Proof.
  destruct w; try discriminate; cbn [outline]; try (match goal with |- context [leaf ?x] => destruct (leaf x); discriminate end).
  intros E. injection E as -> -> <-. eauto.
Qed.

Lemma prefix_applies toks wo a o v e : outline wo = node "Attributed<OperatorPrefix>" [a; o] -> prefix o v e ->
  forall w p q1 q2, outline w = v -> after_point p q2 ->
  exists wr, outline wr = node "Attributed<Expression>" [a; e] /\
    forall res, ayields (apply_one toks (mkCar w q1 q2 :: res) (OpPrefix wo) p q1) (mkCar wr p q2 :: res).
Proof.
  intros O P w p q1 q2 OW A. expose. extents.
  match goal with O : outline ?x = VList [] |- _ => rename O into ON end.
  apply after_not_lt in A.
  match goal with O : outline ?x = o |- _ => rename O into OO; rename x into wop end.
  destruct P; apply outline_var in OO; destruct OO as (p' & -> & OO); cbn [apply_one].
  all: try match goal with I : In _ _ |- _ => cbn [In] in I; repeat destruct I as [<-|I]; try contradiction end.
  all: cbn [String.eqb Ascii.eqb Bool.eqb]; eexists; (split; [|intros res; unfold apply_maybe_prefix, apply_prefix; cbn [pop_expression abind c_ept c_val c_spt]; rewrite A;
    apply ex_bind; reflexivity]); unfold bare, expr, expression, node; cbn; unfold hole in *; rewrite ?OO, ?ON, ?OW; try congruence.
Qed.

Lemma infix_applies toks k x v w e : infix k v w e -> forall p q, takes toks p (Raw (Tk k x)) q ->
  exists op, (forall a en, sem toks a (GNT N_expression_infix_or_postfix) en p (SOk q (VVar "InfixOrPostfix" "Infix" op))) /\
    is_range op = range_kind k /\
    forall wa wb p1 q1 p2 q2, outline wa = v -> outline wb = w -> 
    exists wr, outline wr = bare e /\
      ayields (apply_one toks [mkCar wb p2 q2; mkCar wa p1 q1] (OpInfix op) p q) [mkCar wr p1 q2].
Proof.
  intros I p q T.
  assert (K : gets toks p (MK k) q (VExt x)).
  { destruct T as (S & N & ->). destruct p as [i s]. cbn [sub off] in *. subst s. apply (gets_tok toks (MK k) i (Tk k x)); [exact N|].
    cbn [convert]. replace (tkind_eqb k k) with true; [reflexivity|]. destruct k; reflexivity. }
  inversion I as [k' op a b IN|a b|k' op a b IN]; subst.
  all: try (cbn [In binary_operators] in IN; repeat destruct IN as [[= <- <-]|IN]; try contradiction).
  all: eexists; split; [intros ? ?; run|]; (split; [reflexivity|]); intros wa wb p1 q1 p2 q2 <- <-; cbn [apply_one].
  all: eexists; (split; [|unfold apply_maybe_infix, apply_infix; cbn [List.length Nat.leb pop_expression abind c_ept c_val c_spt String.eqb Ascii.eqb Bool.eqb];
    apply ex_bind; reflexivity]); reflexivity.
Qed.
