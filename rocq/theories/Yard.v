(** The shunting yard: its stacks always describe a contiguous expression, so
    applying operators never panics and yields well-formed expressions. *)

From Coq Require Import String List Arith Bool Lia.
From Verif Require Import Base Peresil Token Schema Value Nt Grammar Points Table Static Typing Safety.
Import ListNotations.
Local Open Scope string_scope.
Local Open Scope list_scope.
Local Open Scope nat_scope.

Notation AE := (TN "Attributed<Expression>").

Section Yard.
  Variable toks : list token.
  Hypothesis WF : wf_toks toks.

  Notation sb := (sb toks).
  Notation valid := (valid toks).
  Notation starts := (starts toks).

  Record car_ok (c : car val) : Prop := {
    co_s : valid (c_spt c);
    co_e : valid (c_ept c);
    co_lt : pos (c_spt c) < pos (c_ept c);
    co_typed : typed (c_val c) AE;
    co_in : vin (sb (c_spt c)) (sb (c_ept c)) (c_val c);
    co_starts : starts (c_spt c) (c_val c)
  }.

  Record op_ok (o : opk) (s e : point) : Prop := {
    oo_s : valid s;
    oo_e : valid e;
    oo_lt : pos s < pos e;
    oo_val : match o with
             | OpPrefix v => typed v (TN "Attributed<OperatorPrefix>") /\ vin (sb s) (sb e) v /\ starts s v
             | OpInfix v => typed v (TN "OperatorInfix") /\ vin (sb s) (sb e) v
             | OpPostfix v => typed v (TN "OperatorPostfix") /\ vin (sb s) (sb e) v
             end
  }.

  Lemma vin_nodes lo hi k fs : Forall (vin lo hi) fs -> vin lo hi (VNode k fs).
  Proof. intros H. apply vin_node. apply vin_list. now rewrite Forall_forall in H. Qed.

  Lemma vin_ext lo hi x : inside lo hi x -> vin lo hi (VExt x).
  Proof. intros H. constructor; [auto|constructor]. Qed.

  Lemma vin_empty lo hi v : extents v = [] -> vin lo hi v.
  Proof. intros H. unfold vin. rewrite H. constructor. Qed.

  Lemma typed_nil t : typed (VList []) (TList t).
  Proof. constructor. intros v []. Qed.

  Lemma attributed_typed x a e w : typed a (TList (TN "Attribute")) -> typed e (TN "Expression") ->
    typed w (TList (TN "Whitespace")) ->
    typed (VNode "Attributed<Expression>" [VExt x; a; e; w]) AE.
  Proof.
    intros. eapply T_Node; [vm_compute; reflexivity|].
    repeat apply Forall2_cons; try apply Forall2_nil; cbn [fst snd]; auto. constructor.
  Qed.

  Ltac expr_typed :=
    unfold expr_node;
    eapply T_Var; [vm_compute; reflexivity|vm_compute; reflexivity|];
    eapply T_Node; [vm_compute; reflexivity|];
    repeat apply Forall2_cons; try apply Forall2_nil; cbn [fst snd]; auto using T_Ext, T_None, T_Some, typed_nil.

  Ltac vins := unfold expr_node; cbn [extents]; try (match goal with |- vin ?a ?b (VVar _ _ ?p) => change (vin a b p) end);
               try apply vin_nodes; repeat apply Forall_cons; try apply Forall_nil;
               auto using vin_ext; try (apply vin_empty; reflexivity).

  Definition build1 (lo hi : nat) (f : extent -> val -> val) : Prop :=
    forall lo' hi' x v, lo' <= lo -> hi <= hi' -> inside lo' hi' x -> typed v AE -> vin lo' hi' v ->
      typed (f x v) (TN "Expression") /\ vin lo' hi' (f x v).

  Definition build_m (lo hi : nat) (f : extent -> val -> val) : Prop :=
    build1 lo hi (fun x v => f x (VSome v)) /\
    forall lo' hi' x, lo' <= lo -> hi <= hi' -> inside lo' hi' x ->
      typed (f x VNone) (TN "Expression") /\ vin lo' hi' (f x VNone).

  Lemma prefix_cases v s e : op_ok (OpPrefix v) s e ->
    exists x attrs, fst x = sb s /\ inside (sb s) (sb e) x /\
      typed attrs (TList (TN "Attribute")) /\ vin (sb s) (sb e) attrs /\
      ((exists f, build1 (sb s) (sb e) f /\
          forall res, apply_one toks res (OpPrefix v) s e = apply_prefix toks res s e x attrs f) \/
       (exists f, build_m (sb s) (sb e) f /\
          forall res, apply_one toks res (OpPrefix v) s e = apply_maybe_prefix toks res s e x attrs f)).
  Proof.
    intros [Vs Ve L (T & I & St)].
    destruct (typed_struct _ _ _ T eq_refl eq_refl) as (fs & -> & F). clear T.
    inversion F as [|v1 f1 fs1 r1 T1 F1]; subst. inversion F1 as [|v2 f2 fs2 r2 T2 F2]; subst.
    inversion F2 as [|v3 f3 fs3 r3 T3 F3]; subst. inversion F3 as [|v4 f4 fs4 r4 T4 F4]; subst.
    inversion F4; subst. clear F F1 F2 F3 F4. cbn [fst snd] in T1, T2, T3, T4.
    inversion T1 as [x| | | | | | | | | | | |]; subst.
    apply vin_node in I.
    assert (vin (sb s) (sb e) (VExt x)) as Ix by (eapply vin_in; [exact I|cbn; tauto]).
    assert (vin (sb s) (sb e) v2) as I2 by (eapply vin_in; [exact I|cbn; tauto]).
    assert (vin (sb s) (sb e) v3) as I3 by (eapply vin_in; [exact I|cbn; tauto]).
    assert (vin (sb s) (sb e) v4) as I4 by (eapply vin_in; [exact I|cbn; tauto]).
    exists x, v2. destruct St as (St & _ & _). split; [apply St; reflexivity|].
    split; [inversion Ix; auto|]. split; [auto|]. split; [auto|].
    destruct (typed_enum _ _ _ T3 eq_refl eq_refl) as (k & p & -> & [(t & A & P)|(A & ->)]).
    2: { exfalso. vm_compute in A. repeat (match type of A with (if ?c then _ else _) = _ => destruct c; try discriminate end).
         all: repeat (match type of A with match ?c with _ => _ end = _ => destruct c; try discriminate end). }
    assert (vin (sb s) (sb e) p) as Ip by exact I3.
    assert (forall lo' hi' w, lo' <= sb s -> sb e <= hi' -> vin (sb s) (sb e) w -> vin lo' hi' w) as Wk
      by (intros; eapply vin_weaken; eauto).
    change (assoc k [("Box", Some TExt); ("Dereference", Some TExt); ("Negate", Some TExt); ("Not", Some TExt);
      ("RangeExclusive", Some TExt); ("RangeInclusive", Some (TN "RangeInclusiveOperator"));
      ("Reference", Some (TOpt TExt))] = Some (Some t)) in A.
    cbn [assoc] in A. cbn [apply_one].
    destruct (String.eqb_spec k "Dereference") as [->|D1].
    { left. eexists. split; [|intros; reflexivity]. intros lo' hi' y w A1 A2 A3 A4 A5. split; [expr_typed|vins]. }
    destruct (String.eqb_spec k "Reference") as [->|D2].
    { left. eexists. split; [|intros; reflexivity]. injection A as <-.
      intros lo' hi' y w A1 A2 A3 A4 A5. split; [expr_typed|vins]. }
    destruct (String.eqb_spec k "Box") as [->|D3].
    { left. eexists. split; [|intros; reflexivity]. intros lo' hi' y w A1 A2 A3 A4 A5. split; [expr_typed|vins]. }
    destruct (String.eqb_spec k "RangeInclusive") as [->|D4].
    { right. eexists. split; [|intros; reflexivity]. injection A as <-. split.
      - intros lo' hi' y w A1 A2 A3 A4 A5. split; [expr_typed|vins].
      - intros lo' hi' y A1 A2 A3. split; [expr_typed|vins]. }
    destruct (String.eqb_spec k "RangeExclusive") as [->|D5].
    { right. eexists. split; [|intros; reflexivity]. split.
      - intros lo' hi' y w A1 A2 A3 A4 A5. split; [expr_typed|vins].
      - intros lo' hi' y A1 A2 A3. split; [expr_typed|vins]. }
    left. eexists. split; [|intros; reflexivity].
    assert (typed (VVar "UnaryOp" k VUnit) (TN "UnaryOp")) as TU.
    { destruct (String.eqb_spec k "Negate") as [->|D6];
        [eapply T_Var0; vm_compute; reflexivity|].
      destruct (String.eqb_spec k "Not") as [->|D7]; [eapply T_Var0; vm_compute; reflexivity|discriminate]. }
    intros lo' hi' y w A1 A2 A3 A4 A5. split; [expr_typed|vins].
  Qed.

  Definition build2 (lo hi : nat) (f : extent -> val -> val -> val) : Prop :=
    forall lo' hi' x v w, lo' <= lo -> hi <= hi' -> inside lo' hi' x -> typed v AE -> vin lo' hi' v ->
      typed w AE -> vin lo' hi' w ->
      typed (f x v w) (TN "Expression") /\ vin lo' hi' (f x v w).

  Lemma infix_cases v s e : op_ok (OpInfix v) s e ->
    (exists f, build2 (sb s) (sb e) f /\
       forall res, apply_one toks res (OpInfix v) s e = apply_infix toks res s e f) \/
    (exists f, build2 (sb s) (sb e) (fun x l r => f x l (VSome r)) /\
       build1 (sb s) (sb e) (fun x l => f x l VNone) /\
       forall res, apply_one toks res (OpInfix v) s e = apply_maybe_infix toks res s e f).
  Proof.
    intros [Vs Ve L (T & I)].
    destruct (typed_enum _ _ _ T eq_refl eq_refl) as (k & p & -> & A).
    assert (vin (sb s) (sb e) p) as Ip by exact I.
    assert (forall lo' hi' w, lo' <= sb s -> sb e <= hi' -> vin (sb s) (sb e) w -> vin lo' hi' w) as Wk
      by (intros; eapply vin_weaken; eauto).
    cbn [apply_one].
    destruct (String.eqb_spec k "RangeInclusive") as [->|D4].
    { right. eexists. split; [|split; [|intros; reflexivity]].
      all: assert (typed p (TN "RangeInclusiveOperator")) as Tp
          by (destruct A as [(t & A & P)|(A & _)]; vm_compute in A; [injection A as <-; exact P|discriminate]).
      - intros lo' hi' y w1 w2 A1 A2 A3 A4 A5 A6 A7. split; [expr_typed|vins].
      - intros lo' hi' y w A1 A2 A3 A4 A5. split; [expr_typed|vins]. }
    destruct (String.eqb_spec k "RangeExclusive") as [->|D5].
    { right. eexists. split; [|split; [|intros; reflexivity]].
      - intros lo' hi' y w1 w2 A1 A2 A3 A4 A5 A6 A7. split; [expr_typed|vins].
      - intros lo' hi' y w A1 A2 A3 A4 A5. split; [expr_typed|vins]. }
    left. eexists. split; [|intros; reflexivity].
    assert (typed (VVar "BinaryOp" k VUnit) (TN "BinaryOp")) as TU.
    { assert (exists vs, enum_variants "BinaryOp" = Some vs /\ assoc k vs = Some None) as (vs & V1 & V2).
      2: { eapply T_Var0; eauto. }
      assert (In k (map fst (match enum_variants "OperatorInfix" with Some vs => vs | None => [] end))) as IK.
      { destruct A as [(t & A & _)|(A & _)]; apply assoc_in in A;
          exact (in_map fst _ _ A). }
      revert IK D4 D5. clear.
      assert (forallb (fun k => (String.eqb k "RangeInclusive") || (String.eqb k "RangeExclusive") ||
                match enum_variants "BinaryOp" with
                | Some vs => match assoc k vs with Some None => true | _ => false end
                | None => false end)
               (map fst (match enum_variants "OperatorInfix" with Some vs => vs | None => [] end)) = true) as H
        by (vm_compute; reflexivity).
      rewrite forallb_forall in H. intros IK D4 D5. specialize (H k IK).
      apply String.eqb_neq in D4. apply String.eqb_neq in D5. rewrite D4, D5 in H. cbn [orb] in H.
      destruct (enum_variants "BinaryOp") as [vs|]; [|discriminate]. exists vs. split; [reflexivity|].
      destruct (assoc k vs) as [[]|]; try discriminate. reflexivity. }
    intros lo' hi' y w1 w2 A1 A2 A3 A4 A5 A6 A7. split; [expr_typed|vins].
  Qed.

  Lemma postfix_cases v s e : op_ok (OpPostfix v) s e ->
    exists f, build1 (sb s) (sb e) f /\
       forall res, apply_one toks res (OpPostfix v) s e = apply_postfix toks res s e f.
  Proof.
    intros [Vs Ve L (T & I)].
    destruct (typed_enum _ _ _ T eq_refl eq_refl) as (k & p & -> & A).
    assert (vin (sb s) (sb e) p) as Ip by exact I.
    assert (forall lo' hi' w, lo' <= sb s -> sb e <= hi' -> vin (sb s) (sb e) w -> vin lo' hi' w) as Wk
      by (intros; eapply vin_weaken; eauto).
    cbn [apply_one].
    repeat match goal with
      |- context [String.eqb k ?n] => destruct (String.eqb_spec k n) as [->|]
    end;
    [(assert (exists t, (exists vs, enum_variants "OperatorPostfix" = Some vs /\ assoc _ vs = Some (Some t)) /\ typed p t) as (t & Tt & Tp)
      by (destruct A as [(t & A & P)|(A & _)]; [exists t; split; [eexists; split; [reflexivity|exact A]|exact P]|vm_compute in A; discriminate]);
      destruct Tt as (vs & V1 & V2); vm_compute in V1; injection V1 as <-; vm_compute in V2; injection V2 as <-;
      eexists; split; [|intros; reflexivity];
      intros lo' hi' y w A1 A2 A3 A4 A5; split; [expr_typed|vins])..|].
    eexists; split; [|intros; reflexivity].
    intros lo' hi' y w A1 A2 A3 A4 A5. split; [expr_typed|vins].
  Qed.

  (** * Applying one operator *)

  Lemma into_attributed_ok s e x v : valid s -> valid e -> pos s < pos e ->
    fst x = sb s -> inside (sb s) (sb e) x ->
    typed v (TN "Expression") -> vin (sb s) (sb e) v ->
    car_ok (mkCar (into_attributed x v) s e).
  Proof.
    intros. constructor; cbn [c_val c_spt c_ept]; auto.
    - apply attributed_typed; auto using typed_nil.
    - unfold into_attributed. apply vin_nodes.
      repeat apply Forall_cons; try apply Forall_nil; auto using vin_ext; apply vin_empty; reflexivity.
    - apply starts_node. now apply starts_ext.
  Qed.

  Lemma prefix_car s e x attrs v :
    valid s -> valid e -> pos s < pos e -> fst x = sb s -> inside (sb s) (sb e) x ->
    typed attrs (TList (TN "Attribute")) -> vin (sb s) (sb e) attrs ->
    typed v (TN "Expression") -> vin (sb s) (sb e) v ->
    car_ok (mkCar (VNode "Attributed<Expression>" [VExt x; attrs; v; VList []]) s e).
  Proof.
    intros. constructor; cbn [c_val c_spt c_ept]; auto.
    - apply attributed_typed; auto using typed_nil.
    - apply vin_nodes.
      repeat apply Forall_cons; try apply Forall_nil; auto using vin_ext; apply vin_empty; reflexivity.
    - apply starts_node. now apply starts_ext.
  Qed.

  Lemma prefix_apply v s e c res : op_ok (OpPrefix v) s e -> car_ok c -> c_spt c = e ->
    exists c', apply_one toks (c :: res) (OpPrefix v) s e = AOk (c' :: res) /\
      car_ok c' /\ c_spt c' = s /\ c_ept c' = c_ept c.
  Proof.
    intros O C E. pose proof (prefix_cases _ _ _ O) as (x & attrs & X1 & X2 & X3 & X4 & X5).
    destruct O as [Vs Ve L _]. destruct C as [Cs Ce Cl Ct Ci _]. rewrite E in *.
    assert (exists f, build1 (sb s) (sb e) f /\
      apply_one toks (c :: res) (OpPrefix v) s e = apply_prefix toks (c :: res) s e x attrs f) as (f & B & ->).
    { destruct X5 as [(f & B & H)|(f & [B _] & H)].
      - exists f. auto.
      - exists (fun x v => f x (VSome v)). split; [auto|]. rewrite H. reflexivity. }
    unfold apply_prefix. cbn [pop_expression abind].
    destruct (pt_lt (c_ept c) s) eqn:PL.
    { apply (pt_lt_pos toks) in PL; auto. lia. }
    destruct (ex_ok _ WF s (c_ept c) Vs Ce ltac:(lia)) as (i & -> & I1 & I2 & I3). cbn [a_of_b abind].
    pose proof (sb_mono _ WF _ _ Vs Ve ltac:(lia)). pose proof (sb_mono _ WF _ _ Ve Ce ltac:(lia)).
    assert (inside (sb s) (sb (c_ept c)) i) as II by (unfold inside; lia).
    destruct (B (sb s) (sb (c_ept c)) i (c_val c) ltac:(lia) ltac:(lia) II Ct) as [B1 B2].
    { eapply vin_weaken; [| |exact Ci]; lia. }
    eexists. split; [reflexivity|]. split; [|split; reflexivity].
    apply prefix_car; auto; try lia.
    - unfold inside in *. cbn [fst snd]. lia.
    - eapply vin_weaken; [| |exact X4]; lia.
  Qed.

  Lemma prefix_apply_empty v s e : op_ok (OpPrefix v) s e ->
    (exists err, apply_one toks [] (OpPrefix v) s e = AErr s err) \/
    (exists c', apply_one toks [] (OpPrefix v) s e = AOk [c'] /\ car_ok c' /\ c_spt c' = s /\ c_ept c' = e).
  Proof.
    intros O. pose proof (prefix_cases _ _ _ O) as (x & attrs & X1 & X2 & X3 & X4 & X5).
    destruct O as [Vs Ve L _].
    destruct X5 as [(f & B & ->)|(f & [_ B] & ->)].
    - left. eexists. reflexivity.
    - right. cbn [apply_maybe_prefix].
      destruct (ex_ok _ WF s e Vs Ve ltac:(lia)) as (i & -> & I1 & I2 & I3). cbn [a_of_b abind].
      assert (inside (sb s) (sb e) i) as II by (unfold inside; lia).
      destruct (B (sb s) (sb e) i ltac:(lia) ltac:(lia) II) as [B1 B2].
      eexists. split; [reflexivity|]. split; [|split; reflexivity].
      apply prefix_car; auto; try lia. unfold inside in *. cbn [fst snd]. lia.
  Qed.

  Lemma prefix_apply_behind v s e c res : op_ok (OpPrefix v) s e -> car_ok c -> pos (c_ept c) < pos s ->
    exists err, apply_one toks (c :: res) (OpPrefix v) s e = AErr s err.
  Proof.
    intros O C L'. pose proof (prefix_cases _ _ _ O) as (x & attrs & X1 & X2 & X3 & X4 & X5).
    destruct O as [Vs Ve L _]. destruct C as [Cs Ce Cl Ct Ci _].
    assert (exists f, apply_one toks (c :: res) (OpPrefix v) s e = apply_prefix toks (c :: res) s e x attrs f) as (f & ->).
    { destruct X5 as [(f & B & H)|(f & [B _] & H)].
      - exists f. auto.
      - exists (fun x v => f x (VSome v)). rewrite H. reflexivity. }
    unfold apply_prefix. cbn [pop_expression abind].
    rewrite (proj2 (pt_lt_pos toks _ _ Ce Vs)); [|exact L']. eauto.
  Qed.

  Lemma infix_apply v s e l r : op_ok (OpInfix v) s e -> car_ok l -> car_ok r ->
    c_ept l = s -> c_spt r = e ->
    exists c', apply_one toks [r; l] (OpInfix v) s e = AOk [c'] /\
      car_ok c' /\ c_spt c' = c_spt l /\ c_ept c' = c_ept r.
  Proof.
    intros O Cl Cr El Er.
    assert (exists f, build2 (sb s) (sb e) f /\
      apply_one toks [r; l] (OpInfix v) s e = apply_infix toks [r; l] s e f) as (f & B & ->).
    { destruct (infix_cases _ _ _ O) as [(f & B & H)|(f & B & _ & H)].
      - exists f. auto.
      - exists (fun x l r => f x l (VSome r)). split; [auto|]. rewrite H. reflexivity. }
    destruct O as [Vs Ve L _].
    destruct Cl as [Cs Ce Cl Ct Ci _]. destruct Cr as [Ds De Dl Dt Di _]. rewrite El, Er in *.
    unfold apply_infix. cbn [pop_expression abind].
    destruct (ex_ok _ WF (c_spt l) (c_ept r) Cs De ltac:(lia)) as (i & -> & I1 & I2 & I3). cbn [a_of_b abind].
    pose proof (sb_mono _ WF _ _ Cs Vs ltac:(lia)). pose proof (sb_mono _ WF _ _ Vs Ve ltac:(lia)).
    pose proof (sb_mono _ WF _ _ Ve De ltac:(lia)).
    assert (inside (sb (c_spt l)) (sb (c_ept r)) i) as II by (unfold inside; lia).
    destruct (B (sb (c_spt l)) (sb (c_ept r)) i (c_val l) (c_val r) ltac:(lia) ltac:(lia) II Ct) as [B1 B2]; auto.
    { eapply vin_weaken; [| |exact Ci]; lia. }
    { eapply vin_weaken; [| |exact Di]; lia. }
    eexists. split; [reflexivity|]. split; [|split; reflexivity].
    apply into_attributed_ok; auto; try lia.
  Qed.

  Lemma infix_apply_missing v s e l : op_ok (OpInfix v) s e -> car_ok l -> c_ept l = s ->
    (exists err, apply_one toks [l] (OpInfix v) s e = AErr s err) \/
    (exists c', apply_one toks [l] (OpInfix v) s e = AOk [c'] /\
      car_ok c' /\ c_spt c' = c_spt l /\ c_ept c' = e).
  Proof.
    intros O Cl El.
    destruct (infix_cases _ _ _ O) as [(f & B & ->)|(f & _ & B & ->)].
    - left. unfold apply_infix. cbn [pop_expression abind]. eauto.
    - right. destruct O as [Vs Ve L _]. destruct Cl as [Cs Ce Cl Ct Ci _]. rewrite El in *.
      unfold apply_maybe_infix. cbn [length Nat.leb pop_expression abind].
      destruct (ex_ok _ WF (c_spt l) e Cs Ve ltac:(lia)) as (i & -> & I1 & I2 & I3). cbn [a_of_b abind].
      pose proof (sb_mono _ WF _ _ Cs Vs ltac:(lia)). pose proof (sb_mono _ WF _ _ Vs Ve ltac:(lia)).
      assert (inside (sb (c_spt l)) (sb e) i) as II by (unfold inside; lia).
      destruct (B (sb (c_spt l)) (sb e) i (c_val l) ltac:(lia) ltac:(lia) II Ct) as [B1 B2].
      { eapply vin_weaken; [| |exact Ci]; lia. }
      eexists. split; [reflexivity|]. split; [|split; reflexivity].
      apply into_attributed_ok; auto; try lia.
  Qed.

  Lemma postfix_apply v s e c : op_ok (OpPostfix v) s e -> car_ok c -> c_ept c = s ->
    exists c', apply_one toks [c] (OpPostfix v) s e = AOk [c'] /\
      car_ok c' /\ c_spt c' = c_spt c /\ c_ept c' = e.
  Proof.
    intros O Cl El. destruct (postfix_cases _ _ _ O) as (f & B & ->).
    destruct O as [Vs Ve L _]. destruct Cl as [Cs Ce Cl Ct Ci _]. rewrite El in *.
    unfold apply_postfix. cbn [pop_expression abind].
    destruct (ex_ok _ WF (c_spt c) e Cs Ve ltac:(lia)) as (i & -> & I1 & I2 & I3). cbn [a_of_b abind].
    pose proof (sb_mono _ WF _ _ Cs Vs ltac:(lia)). pose proof (sb_mono _ WF _ _ Vs Ve ltac:(lia)).
    assert (inside (sb (c_spt c)) (sb e) i) as II by (unfold inside; lia).
    destruct (B (sb (c_spt c)) (sb e) i (c_val c) ltac:(lia) ltac:(lia) II Ct) as [B1 B2].
    { eapply vin_weaken; [| |exact Ci]; lia. }
    eexists. split; [reflexivity|]. split; [|split; reflexivity].
    apply into_attributed_ok; auto; try lia.
  Qed.

  (** * The stacks *)

  (** Operators waiting for an operand that starts at [q]. *)
  Inductive pending (p0 : point) : list (car opk) -> list (car val) -> point -> Prop :=
  | pend_start : pending p0 [] [] p0
  | pend_infix v s e l : op_ok (OpInfix v) s e -> car_ok l -> c_spt l = p0 -> c_ept l = s ->
      pending p0 [mkCar (OpInfix v) s e] [l] e
  | pend_prefix v s e ops res : pending p0 ops res s -> op_ok (OpPrefix v) s e ->
      pending p0 (mkCar (OpPrefix v) s e :: ops) res e.

  Lemma pending_pos p0 ops res q : valid p0 -> pending p0 ops res q -> valid q /\ pos p0 <= pos q.
  Proof.
    intros V. induction 1.
    - auto.
    - destruct H, H0. subst. split; [auto|]. lia.
    - destruct H0. split; [auto|]. lia.
  Qed.

  Lemma pending_res p0 ops res q : pending p0 ops res q -> ops <> [] ->
    Forall (fun c => car_ok c /\ pos (c_ept c) < pos q) res.
  Proof.
    induction 1; intros N.
    - congruence.
    - constructor; [|constructor]. destruct H. subst s. auto.
    - destruct ops as [|o ops].
      + inversion H; subst. constructor.
      + specialize (IHpending ltac:(discriminate)). destruct H0.
        eapply Forall_impl; [|exact IHpending]. cbn beta. intros c []. split; [auto|lia].
  Qed.

  (** All pending operators are applied to their operand. *)
  Lemma collapse p0 ops res c : pending p0 ops res (c_spt c) -> car_ok c ->
    exists c', apply_all toks ops (c :: res) = AOk [c'] /\ car_ok c' /\ c_spt c' = p0 /\ c_ept c' = c_ept c.
  Proof.
    intros H. remember (c_spt c) as q eqn:Eq. revert c Eq. induction H; intros c Eq C.
    - exists c. split; [reflexivity|]. auto.
    - cbn [apply_all c_val c_spt c_ept].
      destruct (infix_apply v s e l c H H0 C H2 (eq_sym Eq)) as (c' & -> & C' & S' & E').
      cbn [abind apply_all]. exists c'. split; [reflexivity|]. split; [auto|]. split; congruence.
    - cbn [apply_all c_val c_spt c_ept].
      destruct (prefix_apply v s e c res H0 C (eq_sym Eq)) as (c' & -> & C' & S' & E').
      cbn [abind].
      destruct (IHpending c' (eq_sym S') C') as (c'' & -> & C'' & S'' & E'').
      exists c''. split; [reflexivity|]. split; [auto|]. split; congruence.
  Qed.

  Definition binds_all (o : opk) : Prop := match o with OpPrefix _ => False | _ => True end.

  Lemma should_pop_true o top : binds_all o -> should_pop o top = true.
  Proof. destruct o, top; cbn; intuition. Qed.

  Lemma should_pop_prefix v top : should_pop (OpPrefix v) top = false.
  Proof. destruct top; reflexivity. Qed.

  Lemma apply_precedence_all o ops res : binds_all o ->
    apply_precedence toks ops res o = abind (apply_all toks ops res) (fun r => AOk (mkYard [] r)).
  Proof.
    intros B. revert res. induction ops as [|top ops IH]; intros res; [reflexivity|].
    cbn [apply_precedence apply_all]. rewrite should_pop_true; auto.
    destruct (apply_one toks res (c_val top) (c_spt top) (c_ept top)); cbn [abind]; auto.
  Qed.

  (** What is left when no operand follows. *)
  Lemma finish_pending p0 ops res q fpt : valid p0 -> valid fpt -> pos p0 <= pos fpt ->
    pending p0 ops res q ->
    (exists p err, finish_yard toks (mkYard ops res) fpt = AErr p err /\ valid p /\ pos p0 <= pos p) \/
    (exists c, finish_yard toks (mkYard ops res) fpt = AOk c /\ car_ok c /\ c_spt c = p0 /\ c_ept c = q).
  Proof.
    intros V0 Vf Lf H. unfold finish_yard. cbn [y_ops y_res]. destruct H.
    - left. cbn [apply_all abind]. eauto 6.
    - cbn [apply_all c_val c_spt c_ept].
      destruct (infix_apply_missing v s e l H H0 H2) as [(err & ->)|(c' & -> & C' & S' & E')].
      + left. cbn [abind]. exists s, err. split; [reflexivity|]. destruct H, H0. subst. split; [auto|lia].
      + right. cbn [abind apply_all]. exists c'. split; [reflexivity|]. split; [auto|]. split; congruence.
    - cbn [apply_all c_val c_spt c_ept].
      destruct (pending_pos _ _ _ _ V0 H) as [Vs Ls].
      destruct res as [|c res].
      + destruct (prefix_apply_empty v s e H0) as [(err & ->)|(c' & -> & C' & S' & E')].
        * left. cbn [abind]. eauto 6.
        * right. cbn [abind]. subst s.
          destruct (collapse _ _ _ _ H C') as (c'' & -> & C'' & S'' & E''). cbn [abind].
          exists c''. split; [reflexivity|]. split; [auto|]. split; congruence.
      + left. assert (car_ok c /\ pos (c_ept c) < pos s) as [C LC].
        { assert (ops <> []) as N by (intros ->; inversion H).
          pose proof (pending_res _ _ _ _ H N) as F. inversion F; auto. }
        destruct (prefix_apply_behind v s e c res H0 C LC) as (err & ->). cbn [abind]. eauto 6.
  Qed.

  (** The invariant of the loop at the point [q]. *)
  Inductive yard_ok (p0 : point) : yard -> estate -> point -> Prop :=
  | yo_prefix ops res q : pending p0 ops res q -> yard_ok p0 (mkYard ops res) SPrefix q
  | yo_infix ops res q b : pending p0 ops res q -> yard_ok p0 (mkYard ops res) (SInfix b) q
  | yo_atom ops res c s : pending p0 ops res (c_spt c) -> car_ok c -> (s = SAtom \/ s = SAtomLimited) ->
      yard_ok p0 (mkYard ops (c :: res)) s (c_ept c)
  | yo_postfix v s e c : op_ok (OpPostfix v) s e -> car_ok c -> c_spt c = p0 -> c_ept c = s ->
      yard_ok p0 (mkYard [mkCar (OpPostfix v) s e] [c]) SPostfix e.

  Lemma yard_pos p0 y s q : valid p0 -> yard_ok p0 y s q -> valid q /\ pos p0 <= pos q.
  Proof.
    intros V H. destruct H; try (eapply pending_pos; eauto; fail).
    - destruct (pending_pos _ _ _ _ V H). destruct H0. split; [auto|lia].
    - destruct H, H0. subst. split; [auto|lia].
  Qed.

  Lemma adapt_ok p0 y s q b : yard_ok p0 y s q -> yard_ok p0 y (adapt_state b y s) q.
  Proof.
    intros H. destruct s; cbn [adapt_state]; auto. destruct b; auto.
    destruct (y_ops y); auto. destruct (rev (y_res y)); auto.
    destruct (may_terminate_statement _); auto. inversion H; subst. constructor; auto.
  Qed.

  (** Complete expressions collapse to one. *)
  Lemma complete p0 y s q : yard_ok p0 y s q -> (s = SAtom \/ s = SAtomLimited \/ s = SPostfix) ->
    exists c, apply_all toks (y_ops y) (y_res y) = AOk [c] /\ car_ok c /\ c_spt c = p0 /\ c_ept c = q.
  Proof.
    intros H S. destruct H; try (destruct S as [|[|]]; discriminate).
    - apply collapse; auto.
    - cbn [y_ops y_res apply_all c_val c_spt c_ept].
      destruct (postfix_apply v s e c H H0 H2) as (c' & -> & C' & S' & E'). cbn [abind].
      exists c'. split; [reflexivity|]. split; [auto|]. split; congruence.
  Qed.

  Lemma finish_complete p0 y s q fpt : yard_ok p0 y s q -> (s = SAtom \/ s = SAtomLimited \/ s = SPostfix) ->
    exists c, finish_yard toks y fpt = AOk c /\ car_ok c /\ c_spt c = p0 /\ c_ept c = q.
  Proof.
    intros H S. destruct (complete _ _ _ _ H S) as (c & E & C).
    unfold finish_yard. rewrite E. cbn [abind]. eauto.
  Qed.

  Lemma add_after p0 y s q v e : yard_ok p0 y s q -> (s = SAtom \/ s = SAtomLimited \/ s = SPostfix) ->
    forall o, (o = OpInfix v \/ o = OpPostfix v) -> op_ok o q e ->
    exists y', add_op toks y o q e = AOk y' /\
      match o with
      | OpInfix _ => forall b, yard_ok p0 y' (SInfix b) e
      | _ => yard_ok p0 y' SPostfix e
      end.
  Proof.
    intros H S o Ho O. destruct (complete _ _ _ _ H S) as (c & E & C & Cs & Ce).
    unfold add_op. rewrite apply_precedence_all by (destruct Ho as [->| ->]; exact I).
    rewrite E. cbn [abind y_ops y_res]. eexists. split; [reflexivity|].
    destruct Ho as [->| ->].
    - intros b. constructor. constructor; auto.
    - constructor; auto.
  Qed.

  Lemma add_prefix p0 ops res q v e : pending p0 ops res q -> op_ok (OpPrefix v) q e ->
    exists y', add_op toks (mkYard ops res) (OpPrefix v) q e = AOk y' /\ yard_ok p0 y' SPrefix e.
  Proof.
    intros H O. unfold add_op. cbn [y_ops y_res].
    assert (apply_precedence toks ops res (OpPrefix v) = AOk (mkYard ops res)) as ->.
    { destruct ops; [reflexivity|]. cbn [apply_precedence]. now rewrite should_pop_prefix. }
    cbn [abind y_ops y_res]. eexists. split; [reflexivity|]. constructor. constructor; auto.
  Qed.

  (** * The loop *)

  Definition fl_shunt : flags := mkF true false true true.

  Lemma shunt_ok stmt poa iop pfl :
    forall p0, valid p0 ->
    (forall q, valid q -> pos p0 <= pos q ->
       okp toks (sb q) (TN "PrefixOrAtom") (mkF true false true false) poa q) ->
    (forall q, valid q -> pos p0 < pos q ->
       okp toks (sb q) (TN "InfixOrPostfix") (mkF true false false false) iop q) ->
    (forall q, valid q -> pos p0 < pos q ->
       okp toks (sb q) (TN "OperatorPostfix") (mkF true false false false) pfl q) ->
    forall n y s q, yard_ok p0 y s q -> rem toks q < n -> forall pm, pm_ok toks pm ->
      match shunt_loop toks n poa iop pfl stmt y s pm q with
      | (pm', Success r v) => pm_ok toks pm' /\ m_state pm' = m_state pm /\ good toks (sb p0) AE fl_shunt p0 r v
      | (pm', Failure r _) => pm_ok toks pm' /\ m_state pm' = m_state pm /\ valid r /\ pos p0 <= pos r
      | (_, Abort _) => False
      end.
  Proof.
    intros p0 V0 Hpoa Hiop Hpfl n. induction n as [|n IH]; intros y s q Y R pm Hpm; [lia|].
    cbn [shunt_loop]. destruct (yard_pos _ _ _ _ V0 Y) as [Vq Lq].
    assert (forall c, car_ok c -> c_spt c = p0 -> good toks (sb p0) AE fl_shunt p0 (c_ept c) (c_val c)) as GC.
    { intros c [] <-. constructor; cbn [fp fa fx fk]; auto; try lia; try discriminate.
      now apply typed_holds. }
    assert (forall y' s' q', yard_ok p0 y' s' q' -> pos q < pos q' -> forall pm', pm_ok toks pm' ->
        m_state pm' = m_state pm ->
        match shunt_loop toks n poa iop pfl stmt y' (adapt_state stmt y' s') pm' q' with
        | (pm', Success r v) => pm_ok toks pm' /\ m_state pm' = m_state pm /\ good toks (sb p0) AE fl_shunt p0 r v
        | (pm', Failure r _) => pm_ok toks pm' /\ m_state pm' = m_state pm /\ valid r /\ pos p0 <= pos r
        | (_, Abort _) => False
        end) as Next.
    { intros y' s' q' Y' L' pm' P' S'. rewrite <- S'.
      apply IH; auto; [now apply adapt_ok|]. pose proof (rem_lt toks _ _ Vq L'). lia. }
    assert (forall c, yard_ok p0 y s q -> (s = SAtom \/ s = SAtomLimited \/ s = SPostfix) -> c = q -> pos p0 < pos q) as PP.
    { intros c Y' S' ->. destruct Y'; try (destruct S' as [|[|]]; discriminate).
      - destruct (pending_pos _ _ _ _ V0 H). destruct H0. lia.
      - destruct H, H0. subst. lia. }
    assert (s = SPrefix \/ (exists b, s = SInfix b) \/ s = SAtom \/ s = SAtomLimited \/ s = SPostfix) as CS.
    { destruct s; eauto 6. }
    assert (forall ops res, y = mkYard ops res -> pending p0 ops res q ->
      forall up : bool,
      let r := match (if up then with_amb Maximum poa else poa) pm q with
      | (pm1, Success p (VVar _ "Prefix" op)) =>
          match add_op toks y (OpPrefix op) q p with
          | AOk y' => shunt_loop toks n poa iop pfl stmt y' (adapt_state stmt y' SPrefix) pm1 p
          | AErr p0 e => (pm1, Failure p0 e)
          | AAbort w => (pm1, Abort w)
          end
      | (pm1, Success p (VVar _ "Atom" v)) =>
          shunt_loop toks n poa iop pfl stmt (add_expression y v q p)
            (adapt_state stmt (add_expression y v q p) SAtom) pm1 p
      | (pm1, Success _ _) => (pm1, Abort IllTyped)
      | (pm1, Failure p _) => finish_progress pm1 (finish_yard toks y p)
      | (pm1, Abort w) => (pm1, Abort w)
      end in
      match r with
      | (pm', Success r v) => pm_ok toks pm' /\ m_state pm' = m_state pm /\ good toks (sb p0) AE fl_shunt p0 r v
      | (pm', Failure r _) => pm_ok toks pm' /\ m_state pm' = m_state pm /\ valid r /\ pos p0 <= pos r
      | (_, Abort _) => False
      end) as Operand.
    { intros ops res -> PE up r. unfold r; clear r.
      assert (match (if up then with_amb Maximum poa else poa) pm q with
              | (pm', Success r v) => pm_ok toks pm' /\ m_state pm' = m_state pm /\
                   good toks (sb q) (TN "PrefixOrAtom") (mkF true false true false) q r v
              | (pm', Failure r _) => pm_ok toks pm' /\ m_state pm' = m_state pm /\ valid r /\ pos q <= pos r
              | (_, Abort _) => False
              end) as H.
      { destruct up.
        - unfold with_amb. pose proof (Hpoa q Vq Lq (set_amb pm Maximum) Hpm) as H.
          destruct (poa (set_amb pm Maximum) q) as [pm1 [r v|r e|w]]; auto.
          + destruct H as (A & _ & B). auto.
          + destruct H as (A & _ & B). auto.
        - exact (Hpoa q Vq Lq pm Hpm). }
      destruct ((if up then with_amb Maximum poa else poa) pm q) as [pm1 [r v|r e|w]]; auto.
      - destruct H as (P1 & S1 & G). destruct G. cbn [fp fa fx fk] in *.
        specialize (g_prog eq_refl). specialize (g_starts eq_refl).
        apply holds_typed in g_holds.
        destruct (typed_enum _ _ _ g_holds eq_refl eq_refl) as (k & pl & -> & A).
        assert ((k = "Prefix" /\ typed pl (TN "Attributed<OperatorPrefix>")) \/ (k = "Atom" /\ typed pl AE)) as CK.
        { destruct A as [(t & A & P)|(A & _)].
          - change (assoc k [("Prefix", Some (TN "Attributed<OperatorPrefix>")); ("Atom", Some AE)] = Some (Some t)) in A.
            cbn [assoc] in A.
            destruct (String.eqb_spec k "Prefix"); [injection A as <-; auto|].
            destruct (String.eqb_spec k "Atom"); [injection A as <-; auto|discriminate].
          - change (assoc k [("Prefix", Some (TN "Attributed<OperatorPrefix>")); ("Atom", Some AE)] = Some None) in A.
            cbn [assoc] in A.
            destruct (String.eqb k "Prefix"); [discriminate|]. destruct (String.eqb k "Atom"); discriminate. }
        assert (starts q pl) as SP.
        { destruct g_starts as (S2 & _ & _). split; [exact S2|].
          destruct CK as [[_ T]|[_ T]]; (split; intros ? ->; inversion T). }
        destruct CK as [[-> T]|[-> T]].
        + destruct (add_prefix p0 ops res q pl r PE) as (y' & -> & Y').
          { constructor; auto. }
          apply (Next _ _ _ Y'); auto.
        + unfold add_expression. cbn [y_ops y_res].
          apply (Next _ SAtom r); auto.
          apply (yo_atom p0 ops res (mkCar pl q r)); auto. constructor; auto.
      - destruct H as (P1 & S1 & Vr & Lr).
        destruct (finish_pending p0 ops res q r V0 Vr ltac:(lia) PE) as [(p & err & -> & A & B)|(c & -> & A & B & C)];
          cbn [finish_progress]; auto. }
    assert ((s = SAtom \/ s = SAtomLimited \/ s = SPostfix) -> forall op r pm1,
      pm_ok toks pm1 -> m_state pm1 = m_state pm -> valid r -> pos q < pos r -> vin (sb q) (sb r) op ->
      typed op (TN "OperatorPostfix") ->
      match match add_op toks y (OpPostfix op) q r with
            | AOk y' => shunt_loop toks n poa iop pfl stmt y' (adapt_state stmt y' SPostfix) pm1 r
            | AErr p0 e => (pm1, Failure p0 e)
            | AAbort w => (pm1, Abort w)
            end with
      | (pm', Success r v) => pm_ok toks pm' /\ m_state pm' = m_state pm /\ good toks (sb p0) AE fl_shunt p0 r v
      | (pm', Failure r _) => pm_ok toks pm' /\ m_state pm' = m_state pm /\ valid r /\ pos p0 <= pos r
      | (_, Abort _) => False
      end) as Post.
    { intros S' op r pm1 P1 S1 Vr Lr Ir Tr.
      destruct (add_after p0 y s q op r Y S' (OpPostfix op) (or_intror eq_refl)) as (y' & -> & Y').
      { constructor; auto. }
      apply (Next _ _ _ Y'); auto. }
    assert ((s = SAtom \/ s = SAtomLimited \/ s = SPostfix) -> forall r pm1,
      pm_ok toks pm1 -> m_state pm1 = m_state pm ->
      match finish_progress pm1 (finish_yard toks y r) with
      | (pm', Success r v) => pm_ok toks pm' /\ m_state pm' = m_state pm /\ good toks (sb p0) AE fl_shunt p0 r v
      | (pm', Failure r _) => pm_ok toks pm' /\ m_state pm' = m_state pm /\ valid r /\ pos p0 <= pos r
      | (_, Abort _) => False
      end) as Fin.
    { intros S' r pm1 P1 S1. destruct (finish_complete p0 y s q r Y S') as (c & -> & A & B & C).
      cbn [finish_progress]. auto. }
    assert ((s = SAtom \/ s = SPostfix) ->
      match match iop pm q with
            | (pm1, Success p (VVar _ "Infix" op)) =>
                match add_op toks y (OpInfix op) q p with
                | AOk y' => shunt_loop toks n poa iop pfl stmt y' (adapt_state stmt y' (SInfix (is_range op))) pm1 p
                | AErr p0 e => (pm1, Failure p0 e)
                | AAbort w => (pm1, Abort w)
                end
            | (pm1, Success p (VVar _ "Postfix" op)) =>
                match add_op toks y (OpPostfix op) q p with
                | AOk y' => shunt_loop toks n poa iop pfl stmt y' (adapt_state stmt y' SPostfix) pm1 p
                | AErr p0 e => (pm1, Failure p0 e)
                | AAbort w => (pm1, Abort w)
                end
            | (pm1, Success _ _) => (pm1, Abort IllTyped)
            | (pm1, Failure p _) => finish_progress pm1 (finish_yard toks y p)
            | (pm1, Abort w) => (pm1, Abort w)
            end with
      | (pm', Success r v) => pm_ok toks pm' /\ m_state pm' = m_state pm /\ good toks (sb p0) AE fl_shunt p0 r v
      | (pm', Failure r _) => pm_ok toks pm' /\ m_state pm' = m_state pm /\ valid r /\ pos p0 <= pos r
      | (_, Abort _) => False
      end) as Oper.
    { intros S'. assert (s = SAtom \/ s = SAtomLimited \/ s = SPostfix) as S2 by tauto.
      pose proof (Hiop q Vq (PP q Y S2 eq_refl) pm Hpm) as H.
      destruct (iop pm q) as [pm1 [r v|r e|w]]; auto.
      2: { destruct H as (P1 & S1 & Vr & Lr). apply Fin; auto. }
      destruct H as (P1 & S1 & G). destruct G. cbn [fp fa fx fk] in *.
      specialize (g_prog eq_refl). apply holds_typed in g_holds.
      destruct (typed_enum _ _ _ g_holds eq_refl eq_refl) as (k & pl & -> & A).
      assert ((k = "Infix" /\ typed pl (TN "OperatorInfix")) \/ (k = "Postfix" /\ typed pl (TN "OperatorPostfix"))) as CK.
      { destruct A as [(t & A & P)|(A & _)].
        - change (assoc k [("Infix", Some (TN "OperatorInfix")); ("Postfix", Some (TN "OperatorPostfix"))] = Some (Some t)) in A.
          cbn [assoc] in A.
          destruct (String.eqb_spec k "Infix"); [injection A as <-; auto|].
          destruct (String.eqb_spec k "Postfix"); [injection A as <-; auto|discriminate].
        - change (assoc k [("Infix", Some (TN "OperatorInfix")); ("Postfix", Some (TN "OperatorPostfix"))] = Some None) in A.
          cbn [assoc] in A.
          destruct (String.eqb k "Infix"); [discriminate|]. destruct (String.eqb k "Postfix"); discriminate. }
      destruct CK as [[-> T]|[-> T]].
      - destruct (add_after p0 y s q pl r Y S2 (OpInfix pl) (or_introl eq_refl)) as (y' & -> & Y').
        { constructor; auto. }
        apply (Next _ _ _ (Y' _)); auto.
      - apply Post; auto. }
    destruct CS as [->|[(b & ->)|CS]].
    - inversion Y as [ops res ? PE| |? ? ? ? ? ? DS|]; subst; [|destruct DS; discriminate].
      exact (Operand ops res eq_refl PE false).
    - inversion Y as [|ops res ? ? PE|? ? ? ? ? ? DS|]; subst; [|destruct DS; discriminate].
      exact (Operand ops res eq_refl PE _).
    - destruct CS as [->|[->| ->]].
      + apply Oper. auto.
      + pose proof (Hpfl q Vq (PP q Y ltac:(auto) eq_refl) pm Hpm) as H.
        destruct (pfl pm q) as [pm1 [r v|r e|w]]; auto.
        * destruct H as (P1 & S1 & G). destruct G. cbn [fp fa fx fk] in *.
          apply Post; auto using holds_typed.
        * destruct H as (P1 & S1 & Vr & Lr). apply Fin; auto.
      + apply Oper. auto.
  Qed.
End Yard.
