(** Types with holes, and soundness of [binfer]: building a result never
    aborts, yields a value of the inferred type, and keeps extents in bounds. *)

From Coq Require Import String List Arith Bool Lia.
From Verif Require Import Base Peresil Token Schema Value Nt Grammar Points Table Static.
Import ListNotations.
Local Open Scope string_scope.
Local Open Scope list_scope.
Local Open Scope nat_scope.

(** * The order on types with holes *)

Lemma tle_refl a : tle a a = true.
Proof.
  induction a; cbn [tle]; auto.
  - now rewrite IHa1, IHa2.
  - destruct (String.eqb name "?"); auto. apply String.eqb_refl.
Qed.

Lemma tle_hole a : tle hole a = true.
Proof. reflexivity. Qed.

Lemma tle_trans a b c : tle a b = true -> tle b c = true -> tle a c = true.
Proof.
  revert b c. induction a; intros b c; cbn [tle].
  10: { destruct (String.eqb name "?") eqn:E; [reflexivity|].
       destruct b; try discriminate. intros H. apply String.eqb_eq in H. subst.
       cbn [tle]. rewrite E. auto. }
  all: destruct b; cbn [tle]; try discriminate; auto.
  all: destruct c; try discriminate; eauto.
  rewrite !andb_true_iff. intros [] []. split; eauto.
Qed.

Lemma tle_hole_free a b : hole_free a = true -> tle a b = true -> a = b.
Proof.
  revert b. induction a; intros b; cbn [tle hole_free].
  10: { rewrite negb_true_iff. intros ->. destruct b; try discriminate.
       intros H. apply String.eqb_eq in H. now subst. }
  all: destruct b; try discriminate; auto.
  - intros H1 H2. f_equal. auto.
  - intros H1 H2. f_equal. auto.
  - rewrite !andb_true_iff. intros [] []. f_equal; auto.
Qed.

Lemma join_ub a b c : join a b = Some c -> tle a c = true /\ tle b c = true.
Proof.
  revert b c. induction a; intros b c.
  all: cbn [join].
  all: match goal with |- (if ?t then _ else _) = _ -> _ => destruct t eqn:E1 end;
    [intros [= <-]; split; [exact E1|apply tle_refl]|].
  all: match goal with |- (if ?t then _ else _) = _ -> _ => destruct t eqn:E2 end;
    [intros [= <-]; split; [apply tle_refl|exact E2]|].
  all: destruct b; try discriminate.
  - destruct (join a b) eqn:J; [|discriminate]. intros [= <-]. cbn [tle]. auto.
  - destruct (join a b) eqn:J; [|discriminate]. intros [= <-]. cbn [tle]. auto.
  - destruct (join a1 b1) eqn:J1; [|discriminate]. destruct (join a2 b2) eqn:J2; [|discriminate].
    intros [= <-]. cbn [tle]. apply IHa1 in J1. apply IHa2 in J2.
    rewrite !andb_true_iff. tauto.
Qed.

(** [v] has every type that fills the holes of [t]. *)
Definition holds (v : val) (t : ty) : Prop := forall t', tle t t' = true -> typed v t'.

Lemma holds_typed v t : holds v t -> typed v t.
Proof. intros H. apply H. apply tle_refl. Qed.

Lemma holds_le v t t' : holds v t -> tle t t' = true -> holds v t'.
Proof. intros H L u Hu. apply H. eapply tle_trans; eauto. Qed.

Lemma typed_holds v t : hole_free t = true -> typed v t -> holds v t.
Proof. intros F H t' L. apply tle_hole_free in L; auto. now subst. Qed.

Lemma holds_opt v t : holds v (TOpt t) -> v = VNone \/ exists w, v = VSome w /\ holds w t.
Proof.
  intros H. pose proof (holds_typed _ _ H) as T. inversion T; subst; [auto|].
  right. eexists. split; [reflexivity|]. intros t' L.
  assert (typed (VSome v0) (TOpt t')) as T' by (apply H; exact L). now inversion T'.
Qed.

Lemma holds_list v t : holds v (TList t) -> exists l, v = VList l /\ forall x, In x l -> holds x t.
Proof.
  intros H. pose proof (holds_typed _ _ H) as T. inversion T; subst.
  eexists. split; [reflexivity|]. intros x Hx t' L.
  assert (typed (VList l) (TList t')) as T' by (apply H; exact L). inversion T'; auto.
Qed.

Lemma holds_pair v a b : holds v (TPair a b) -> exists x y, v = VPair x y /\ holds x a /\ holds y b.
Proof.
  intros H. pose proof (holds_typed _ _ H) as T. inversion T; subst.
  eexists _, _. split; [reflexivity|]. split.
  - intros t' L.
    assert (typed (VPair a0 b0) (TPair t' b)) as T'
      by (apply H; cbn; rewrite L, tle_refl; reflexivity). now inversion T'.
  - intros t' L.
    assert (typed (VPair a0 b0) (TPair a t')) as T'
      by (apply H; cbn; rewrite L, tle_refl; reflexivity). now inversion T'.
Qed.

Lemma tle_opt t u : tle (TOpt t) u = true -> exists u', u = TOpt u' /\ tle t u' = true.
Proof. destruct u; cbn; try discriminate. eauto. Qed.

Lemma tle_list t u : tle (TList t) u = true -> exists u', u = TList u' /\ tle t u' = true.
Proof. destruct u; cbn; try discriminate. eauto. Qed.

Lemma holds_none t : holds VNone (TOpt t).
Proof. intros u L. apply tle_opt in L. destruct L as (u' & -> & _). constructor. Qed.

Lemma holds_some v t : holds v t -> holds (VSome v) (TOpt t).
Proof. intros H u L. apply tle_opt in L. destruct L as (u' & -> & L). constructor. auto. Qed.

Lemma holds_vlist l t : (forall v, In v l -> holds v t) -> holds (VList l) (TList t).
Proof.
  intros H u L. apply tle_list in L. destruct L as (u' & -> & L). constructor.
  intros v Hv. exact (H v Hv _ L).
Qed.

Lemma holds_vpair a b ta tb : holds a ta -> holds b tb -> holds (VPair a b) (TPair ta tb).
Proof.
  intros Ha Hb u L. destruct u; try discriminate. cbn in L. apply andb_true_iff in L.
  destruct L. constructor; auto.
Qed.

Lemma holds_ext e : holds (VExt e) TExt.
Proof. intros u L. destruct u; try discriminate. constructor. Qed.
Lemma holds_bool b : holds (VBool b) TBool.
Proof. intros u L. destruct u; try discriminate. constructor. Qed.
Lemma holds_nat n : holds (VNat n) TNat.
Proof. intros u L. destruct u; try discriminate. constructor. Qed.
Lemma holds_unit : holds VUnit TUnit.
Proof. intros u L. destruct u; try discriminate. constructor. Qed.
Lemma holds_point p : holds (VPoint p) TPoint.
Proof. intros u L. destruct u; try discriminate. constructor. Qed.
Lemma holds_num n : holds (VNum n) TNumber.
Proof. intros u L. destruct u; try discriminate. constructor. Qed.

Lemma holds_ext_inv v : holds v TExt -> exists e, v = VExt e.
Proof. intros H. pose proof (holds_typed _ _ H) as T. inversion T; eauto. Qed.
Lemma holds_bool_inv v : holds v TBool -> exists e, v = VBool e.
Proof. intros H. pose proof (holds_typed _ _ H) as T. inversion T; eauto. Qed.
Lemma holds_nat_inv v : holds v TNat -> exists e, v = VNat e.
Proof. intros H. pose proof (holds_typed _ _ H) as T. inversion T; eauto. Qed.
Lemma holds_num_inv v : holds v TNumber -> exists e, v = VNum e.
Proof. intros H. pose proof (holds_typed _ _ H) as T. inversion T; eauto. Qed.
Lemma holds_point_inv v : holds v TPoint -> exists e, v = VPoint e.
Proof. intros H. pose proof (holds_typed _ _ H) as T. inversion T; eauto. Qed.
Lemma holds_unit_inv v : holds v TUnit -> v = VUnit.
Proof. intros H. pose proof (holds_typed _ _ H) as T. inversion T; eauto. Qed.

Lemma nopoint_not_point v t q : holds v t -> nopoint t = true -> v <> VPoint q.
Proof.
  intros H N ->. pose proof (holds_typed _ _ H) as T. inversion T; subst. discriminate.
Qed.

Lemma struct_not_hole k fs : struct_fields k = Some fs -> hole_free (TN k) = true.
Proof.
  intros H. cbn. rewrite negb_true_iff. destruct (String.eqb_spec k "?") as [->|]; auto.
  vm_compute in H. discriminate.
Qed.

Lemma enum_not_hole k fs : enum_variants k = Some fs -> hole_free (TN k) = true.
Proof.
  intros H. cbn. rewrite negb_true_iff. destruct (String.eqb_spec k "?") as [->|]; auto.
  vm_compute in H. discriminate.
Qed.

Lemma assoc_in {A} k (l : list (string * A)) a : assoc k l = Some a -> In (k, a) l.
Proof.
  induction l as [|[k' a'] l IH]; cbn; [discriminate|].
  destruct (String.eqb_spec k k') as [->|]; [intros [= ->]; auto|auto].
Qed.

(** * Extents of typed values *)

Lemma extent_of_inside lo hi v e : vin lo hi v -> extent_of v = Some e -> inside lo hi e.
Proof.
  revert e. induction v using val_ind'; cbn; intros x V E; try discriminate.
  - injection E as <-. inversion V; auto.
  - destruct fs as [|[] fs]; try discriminate. injection E as <-. inversion V; auto.
  - auto.
Qed.

Lemma typed_struct v k fields : typed v (TN k) -> struct_fields k = Some fields ->
  enum_variants k = None ->
  exists fs, v = VNode k fs /\ Forall2 (fun v f => typed v (snd (fst f))) fs fields.
Proof.
  intros T S E. inversion T as [| | | | | | | | | |k' fs' fields' S' F|e n p vs t E' A P|e n vs E' A]; subst;
    try congruence.
  rewrite S in S'. injection S' as <-. eauto.
Qed.

Lemma typed_enum v k vs : typed v (TN k) -> enum_variants k = Some vs -> struct_fields k = None ->
  exists n p, v = VVar k n p /\
    ((exists t, assoc n vs = Some (Some t) /\ typed p t) \/ (assoc n vs = Some None /\ p = VUnit)).
Proof.
  intros T E S. inversion T as [| | | | | | | | | |k' fs' fields' S' F|e n p vs' t E' A P|e n vs' E' A]; subst;
    try congruence; rewrite E in E'; injection E' as <-; eauto 8.
Qed.

Lemma has_ext_ok d t v : has_ext d t = true -> typed v t -> exists e, extent_of v = Some e.
Proof.
  revert t v. induction d as [|d IH]; intros t v H T.
  - destruct t; try discriminate; [inversion T; subst; cbn; eauto|].
    cbn [has_ext] in H. destruct (struct_fields name) as [[|[[f []] m] fs]|] eqn:S; try discriminate.
    destruct (enum_variants name) eqn:E; [discriminate|].
    destruct (typed_struct _ _ _ T S E) as (fs' & -> & F).
    inversion F as [|a b c d Ha]; subst. cbn in Ha. inversion Ha; subst. cbn. eauto.
  - destruct t; try discriminate; [inversion T; subst; cbn; eauto|].
    cbn [has_ext] in H. destruct (struct_fields name) as [[|[[f []] m] fs]|] eqn:S; try discriminate.
    + destruct (enum_variants name) eqn:E; [discriminate|].
      destruct (typed_struct _ _ _ T S E) as (fs' & -> & F).
      inversion F as [|a b c d' Ha]; subst. cbn in Ha. inversion Ha; subst. cbn. eauto.
    + destruct (enum_variants name) as [vs|] eqn:E; [|discriminate].
      rewrite forallb_forall in H.
      destruct (typed_enum _ _ _ T E S) as (n & p & -> & [(t & A & P)|(A & ->)]);
        apply assoc_in in A; apply H in A; cbn in A; [cbn; eauto|discriminate].
Qed.

(** * Induction over builders *)

Section bexp_ind.
  Variable P : bexp -> Prop.
  Hypothesis HVar : forall x, P (BVar x).
  Hypothesis HEx : forall x, P (BEx x).
  Hypothesis HExTo : forall x y, P (BExTo x y).
  Hypothesis HUnit : P BUnit.
  Hypothesis HNil : P BNil.
  Hypothesis HNone : P BNone.
  Hypothesis HSome : forall b, P b -> P (BSome b).
  Hypothesis HSingle : forall b, P b -> P (BSingle b).
  Hypothesis HInto : forall b, P b -> P (BIntoAppend b).
  Hypothesis HUnwrapNil : forall b, P b -> P (BUnwrapNil b).
  Hypothesis HUnwrapOr : forall b d, P b -> P d -> P (BUnwrapOr b d).
  Hypothesis HMk : forall k fs, Forall (fun f => P (snd f)) fs -> P (BMk k fs).
  Hypothesis HVariant : forall e v b, P b -> P (BVariant e v b).
  Hypothesis HPair : forall a b, P a -> P b -> P (BPair a b).
  Hypothesis HFst : forall b, P b -> P (BFst b).
  Hypothesis HSnd : forall b, P b -> P (BSnd b).
  Hypothesis HField : forall f b, P b -> P (BField f b).
  Hypothesis HExtentOf : forall b, P b -> P (BExtentOf b).
  Hypothesis HIsSome : forall b, P b -> P (BIsSome b).
  Hypothesis HOptFst : forall b, P b -> P (BOptFst b).
  Hypothesis HOptSnd : forall b, P b -> P (BOptSnd b).
  Hypothesis HStmts : forall s t, P s -> P t -> P (BStmts s t).
  Hypothesis HTrailing : forall s t, P s -> P t -> P (BTrailing s t).
  Hypothesis HParen : forall s t, P s -> P t -> P (BParen s t).
  Hypothesis HNumber : forall b, P b -> P (BNumber b).
  Fixpoint bexp_ind' (b : bexp) : P b :=
    let fix go (l : list (string * bexp)) : Forall (fun f => P (snd f)) l :=
        match l with
        | [] => Forall_nil _
        | x :: l' => Forall_cons x (bexp_ind' (snd x)) (go l')
        end in
    match b with
    | BVar x => HVar x
    | BEx x => HEx x
    | BExTo x y => HExTo x y
    | BUnit => HUnit
    | BNil => HNil
    | BNone => HNone
    | BSome b => HSome b (bexp_ind' b)
    | BSingle b => HSingle b (bexp_ind' b)
    | BIntoAppend b => HInto b (bexp_ind' b)
    | BUnwrapNil b => HUnwrapNil b (bexp_ind' b)
    | BUnwrapOr b d => HUnwrapOr b d (bexp_ind' b) (bexp_ind' d)
    | BMk k fs => HMk k fs (go fs)
    | BVariant e v b => HVariant e v b (bexp_ind' b)
    | BPair a b => HPair a b (bexp_ind' a) (bexp_ind' b)
    | BFst b => HFst b (bexp_ind' b)
    | BSnd b => HSnd b (bexp_ind' b)
    | BField f b => HField f b (bexp_ind' b)
    | BExtentOf b => HExtentOf b (bexp_ind' b)
    | BIsSome b => HIsSome b (bexp_ind' b)
    | BOptFst b => HOptFst b (bexp_ind' b)
    | BOptSnd b => HOptSnd b (bexp_ind' b)
    | BStmts s t => HStmts s t (bexp_ind' s) (bexp_ind' t)
    | BTrailing s t => HTrailing s t (bexp_ind' s) (bexp_ind' t)
    | BParen s t => HParen s t (bexp_ind' s) (bexp_ind' t)
    | BNumber b => HNumber b (bexp_ind' b)
    end.
End bexp_ind.

(** * Environments *)

Section Env.
  Variable toks : list token.
  Hypothesis WF : wf_toks toks.

  Notation sb := (sb toks).
  Notation valid := (valid toks).

  (** The value starts exactly at [p]. *)
  Definition starts (p : point) (v : val) : Prop :=
    (forall e, extent_of v = Some e -> fst e = sb p) /\
    (forall n, v = VNum n -> fst (n_extent n) = sb p) /\
    (forall q, v = VPoint q -> q = p).

  Inductive env_ok (lo : nat) : env -> tenv -> point -> Prop :=
  | env_nil p : lo <= sb p -> env_ok lo [] [] p
  | env_cons x v t e te p' p :
      env_ok lo e te p' -> valid p' -> pos p' <= pos p ->
      holds v t -> vin lo (sb p) v ->
      (forall q, v = VPoint q -> valid q /\ lo <= sb q /\ pos p' <= pos q /\ pos q <= pos p) ->
      env_ok lo ((x, v) :: e) ((x, t) :: te) p.

  Lemma env_weaken lo e te p q : env_ok lo e te p -> valid p -> valid q -> pos p <= pos q ->
    env_ok lo e te q.
  Proof.
    intros H Vp Vq L. pose proof (sb_mono _ WF _ _ Vp Vq L) as M. destruct H.
    - constructor. lia.
    - econstructor; eauto; try lia.
      + eapply vin_weaken; [| |eassumption]; lia.
      + intros r Hr. destruct (H4 r Hr) as (A & B & C & D). repeat split; auto; lia.
  Qed.

  Lemma env_lo lo e te p : env_ok lo e te p -> valid p -> lo <= sb p.
  Proof.
    induction 1; intros Vp; auto. specialize (IHenv_ok H0).
    pose proof (sb_mono _ WF _ _ H0 Vp H1). lia.
  Qed.

  Lemma env_assoc lo e te p x t : env_ok lo e te p -> valid p -> assoc x te = Some t ->
    exists v, assoc x e = Some v /\ holds v t /\ vin lo (sb p) v /\
      (forall q, v = VPoint q -> valid q /\ lo <= sb q /\ pos q <= pos p).
  Proof.
    induction 1; intros Vp; [discriminate|]. cbn [assoc].
    destruct (String.eqb x x0).
    - intros [= <-]. eexists. split; [reflexivity|]. split; [auto|]. split; [auto|].
      intros q Hq. destruct (H4 q Hq) as (A & B & C & D). auto.
    - intros Hx. destruct (IHenv_ok H0 Hx) as (w & A & B & C & D).
      pose proof (sb_mono _ WF _ _ H0 Vp H1) as M.
      exists w. split; [auto|]. split; [auto|]. split.
      + eapply vin_weaken; [| |eassumption]; lia.
      + intros q Hq. destruct (D q Hq) as (D1 & D2 & D3). repeat split; auto; lia.
  Qed.

  Lemma env_order lo e te p x y i j a b :
    env_ok lo e te p -> valid p -> tidx x te = Some i -> tidx y te = Some j -> j <= i ->
    assoc x e = Some (VPoint a) -> assoc y e = Some (VPoint b) -> pos a <= pos b.
  Proof.
    intros H. revert i j. induction H; intros i j Vp; [discriminate|]. cbn [tidx assoc].
    destruct (String.eqb x x0), (String.eqb y x0).
    - intros [= <-] [= <-] _ [= ->] [= ->]. lia.
    - intros [= <-]. destruct (tidx y te); [|discriminate]. intros [= <-]. lia.
    - destruct (tidx x te) eqn:Tx; [|discriminate]. intros [= <-] [= <-] _ Ha [= ->].
      assert (exists t0, assoc x te = Some t0) as [t0 Ht0].
      { clear -Tx. revert n Tx. induction te as [|[k u] te IH]; intros n; [discriminate|].
        cbn [tidx assoc]. destruct (String.eqb x k); [eauto|].
        destruct (tidx x te); [|discriminate]. intros _. eauto. }
      destruct (env_assoc _ _ _ _ _ _ H H0 Ht0) as (w & Hw & _ & _ & P).
      rewrite Ha in Hw. injection Hw as <-.
      destruct (P a eq_refl) as (_ & _ & P1). destruct (H4 b eq_refl) as (_ & _ & P2 & _). lia.
    - destruct (tidx x te) eqn:Tx; [|discriminate]. intros [= <-].
      destruct (tidx y te) eqn:Ty; [|discriminate]. intros [= <-] L.
      eapply IHenv_ok; eauto; lia.
  Qed.

  Definition tags_ok (p0 : point) (tags : list (string * bool)) (e : env) : Prop :=
    exists e1 e0, e = e1 ++ e0 /\
      Forall2 (fun t b => fst t = fst b /\ (snd t = true -> starts p0 (snd b))) tags e1.

  Lemma tags_nil p0 e : tags_ok p0 [] e.
  Proof. exists [], e. split; [reflexivity|constructor]. Qed.

  Lemma tags_cons p0 tags e x t v :
    tags_ok p0 tags e -> (t = true -> starts p0 v) -> tags_ok p0 ((x, t) :: tags) ((x, v) :: e).
  Proof.
    intros (e1 & e0 & -> & F) H. exists ((x, v) :: e1), e0. split; [reflexivity|].
    constructor; auto.
  Qed.

  Lemma tags_assoc p0 tags e x v : tags_ok p0 tags e -> assoc x tags = Some true ->
    assoc x e = Some v -> starts p0 v.
  Proof.
    intros (e1 & e0 & -> & F). induction F as [|[k t] [k' w] tags e1 [E S] F IH]; cbn; [discriminate|].
    cbn in E. subst k'. destruct (String.eqb x k); auto. intros [= ->] [= ->]. auto.
  Qed.

  Lemma starts_simple p v : extent_of v = None -> (forall n, v <> VNum n) -> (forall q, v <> VPoint q) ->
    starts p v.
  Proof. intros A B C. repeat split; intros; congruence. Qed.

  Lemma starts_ext p e : fst e = sb p -> starts p (VExt e).
  Proof. intros H. repeat split; intros; try congruence. cbn in *. congruence. Qed.

  Lemma starts_var p e v x : starts p x -> starts p (VVar e v x).
  Proof. intros (A & B & C). repeat split; intros; try discriminate. auto. Qed.

  Lemma starts_node p k x fs : starts p x -> starts p (VNode k (x :: fs)).
  Proof.
    intros (A & B & C). repeat split; intros; try discriminate. cbn in H.
    destruct x; try discriminate. apply A. exact H.
  Qed.

  Lemma block_split_cases l t :
    block_split l t = (l, VNone) \/
    exists before en e, l = before ++ [VVar en "Expression" e] /\ t = false /\
                        block_split l t = (before, VSome e).
  Proof.
    unfold block_split. destruct (rev l) as [|s before] eqn:R; [auto|].
    assert (l = rev before ++ [s]) as El.
    { rewrite <- (rev_involutive l), R. reflexivity. }
    destruct s as [| | | | | | | | | | |en vn pl]; auto.
    destruct (String.eqb_spec vn "Expression") as [->|D].
    - destruct t; [auto|]. right. exists (rev before), en, pl. auto.
    - left. repeat (match goal with |- match ?x with _ => _ end = _ => destruct x end; try reflexivity).
      exfalso. apply D. reflexivity.
  Qed.

  Lemma block_split_ok l t lo hi :
    (forall v, In v l -> typed v (TN "Statement")) -> vin lo hi (VList l) ->
    let r := block_split l t in
    (forall v, In v (fst r) -> typed v (TN "Statement")) /\ vin lo hi (VList (fst r)) /\
    typed (snd r) (TOpt (TN "Attributed<Expression>")) /\ vin lo hi (snd r).
  Proof.
    intros T V. cbv zeta.
    destruct (block_split_cases l t) as [->|(before & en & e & -> & -> & ->)].
    { cbn. repeat split; auto; constructor. }
    unfold vin in V. cbn [extents] in V. rewrite flat_map_app in V.
    apply Forall_app in V. destruct V as [V1 V2]. cbn in V2. rewrite app_nil_r in V2.
    assert (typed (VVar en "Expression" e) (TN "Statement")) as Ts by (apply T; apply in_or_app; cbn; auto).
    cbn [fst snd]. split; [intros v Hv; apply T; apply in_or_app; auto|].
    split; [exact V1|].
    destruct (typed_enum _ _ _ Ts eq_refl eq_refl) as (n & q & E & [(t & A & P)|(A & _)]);
      injection E as -> <- <-; vm_compute in A; [|discriminate].
    injection A as <-. split; [now constructor|exact V2].
  Qed.

  Lemma paren_ok x l n lo hi : inside lo hi x -> vin lo hi (VList l) ->
    (forall v, In v l -> typed v (TN "Attributed<Expression>")) ->
    typed (paren_or_tuple x l n) (TN "Expression") /\ vin lo hi (paren_or_tuple x l n) /\
    extent_of (paren_or_tuple x l n) = Some x /\
    exists a b c, paren_or_tuple x l n = VVar a b c.
  Proof.
    intros I V T.
    assert (forall a b c, exists a' b' c', VVar a b c = VVar a' b' c') as EV by eauto.
    assert (typed (VVar "Expression" "Tuple" (VNode "Tuple" [VExt x; VList l; VList []])) (TN "Expression") /\
            vin lo hi (VVar "Expression" "Tuple" (VNode "Tuple" [VExt x; VList l; VList []])) /\
            extent_of (VVar "Expression" "Tuple" (VNode "Tuple" [VExt x; VList l; VList []])) = Some x) as (A & B & C).
    { split; [|split; [|reflexivity]].
      - eapply T_Var; [vm_compute; reflexivity|vm_compute; reflexivity|].
        eapply T_Node; [vm_compute; reflexivity|]. repeat apply Forall2_cons; try apply Forall2_nil; cbn.
        + constructor.
        + constructor. exact T.
        + constructor. intros v [].
      - unfold vin. cbn. constructor; [exact I|]. rewrite app_nil_r. exact V. }
    unfold paren_or_tuple. destruct l as [|v [|w l]]; [auto| |destruct n; auto].
    destruct n; [|auto].
    split; [|split; [|split; [reflexivity|eauto]]].
    - eapply T_Var; [vm_compute; reflexivity|vm_compute; reflexivity|].
      eapply T_Node; [vm_compute; reflexivity|]. repeat apply Forall2_cons; try apply Forall2_nil; cbn.
      + constructor.
      + apply T. cbn. auto.
      + constructor. intros u [].
    - unfold vin in *. cbn in *. constructor; [exact I|]. exact V.
  Qed.

  Lemma vopt_ok o lo hi : Forall (inside lo hi) (match o with Some e => [e] | None => [] end) ->
    typed (vopt o) (TOpt TExt) /\ vin lo hi (vopt o).
  Proof.
    destruct o; cbn; intros H; (split; [|exact H]); repeat constructor.
  Qed.

  Lemma convert_number_ok n lo hi : Forall (inside lo hi) (number_extents n) ->
    typed (convert_number n) (TN "Number") /\ vin lo hi (convert_number n).
  Proof.
    unfold number_extents. intros H.
    inversion H as [|a b Ha H1]; subst. inversion H1 as [|a b Hb H2]; subst.
    apply Forall_app in H2. destruct H2 as [Hf H2]. apply Forall_app in H2. destruct H2 as [He Hs].
    apply vopt_ok in Hf. apply vopt_ok in He. apply vopt_ok in Hs.
    destruct Hf as [Tf Vf], He as [Te Ve], Hs as [Ts Vs].
    split.
    - eapply T_Node; [vm_compute; reflexivity|].
      repeat apply Forall2_cons; try apply Forall2_nil; cbn [fst snd].
      + constructor.
      + constructor.
      + destruct (n_radix n);
          (eapply T_Var; [vm_compute; reflexivity|vm_compute; reflexivity|];
           eapply T_Node; [vm_compute; reflexivity|];
           repeat apply Forall2_cons; try apply Forall2_nil; cbn [fst snd]; auto; constructor).
      + constructor. intros u [].
    - unfold vin, convert_number in *. cbn [extents flat_map]. rewrite !app_nil_r.
      repeat (apply Forall_app; split); auto.
  Qed.

  Lemma vin_in lo hi l v : vin lo hi (VList l) -> In v l -> vin lo hi v.
  Proof.
    unfold vin. cbn [extents]. intros H Hv. rewrite Forall_forall in *.
    intros e He. apply H. apply in_flat_map. eauto.
  Qed.

  Lemma vin_list lo hi l : (forall v, In v l -> vin lo hi v) -> vin lo hi (VList l).
  Proof.
    unfold vin. cbn [extents]. intros H. rewrite Forall_forall.
    intros e He. apply in_flat_map in He. destruct He as (v & Hv & He).
    specialize (H v Hv). rewrite Forall_forall in H. auto.
  Qed.

  Lemma vin_pair lo hi a b : vin lo hi (VPair a b) <-> vin lo hi a /\ vin lo hi b.
  Proof. unfold vin. cbn [extents]. apply Forall_app. Qed.

  Lemma vin_node lo hi k fs : vin lo hi (VNode k fs) <-> vin lo hi (VList fs).
  Proof. reflexivity. Qed.

  (** * Soundness of [binfer] *)
  Lemma beval_ok lo e te p b t : env_ok lo e te p -> valid p -> binfer te b = Some t ->
    exists v, beval toks p e b = BOk v /\ holds v t /\ vin lo (sb p) v /\
      forall p0 tags, tags_ok p0 tags e -> bxs tags b = true -> starts p0 v.
  Proof.
    intros EO V. revert t.
    induction b as [x|x|x y| | | |b IH|b IH|b IH|b IH|b d IH IHd|k fs IH|en vn b IH|a b IHa IHb|b IH|b IH
                   |f b IH|b IH|b IH|b IH|b IH|s u IHs IHu|s u IHs IHu|s u IHs IHu|b IH] using bexp_ind';
      intros t; cbn [binfer beval bxs].
    - (* BVar *) intros H. destruct (env_assoc _ _ _ _ _ _ EO V H) as (v & A & B & C & _).
      rewrite A. eexists. split; [reflexivity|]. split; [auto|]. split; [auto|].
      intros p0 tags TO X. destruct (assoc x tags) as [[]|] eqn:E; try discriminate.
      eapply tags_assoc; eauto.
    - (* BEx *) unfold is_point_var. destruct (assoc x te) as [[]|] eqn:A; try discriminate. intros [= <-].
      destruct (env_assoc _ _ _ _ _ _ EO V A) as (v & A' & B & C & D).
      destruct (holds_point_inv _ B) as [q ->]. destruct (D q eq_refl) as (D1 & D2 & D3).
      rewrite A'. cbn [as_point bbind].
      destruct (ex_ok _ WF q p D1 V D3) as (r & -> & E1 & E2 & E3). cbn [bbind].
      eexists. split; [reflexivity|]. split; [apply holds_ext|]. split.
      + constructor; [|constructor]. unfold inside. lia.
      + intros p0 tags TO X. destruct (assoc x tags) as [[]|] eqn:E; try discriminate.
        pose proof (tags_assoc _ _ _ _ _ TO E A') as (_ & _ & S). specialize (S q eq_refl). subst q.
        apply starts_ext. auto.
    - (* BExTo *) unfold is_point_var.
      destruct (assoc x te) as [[]|] eqn:A; try discriminate.
      destruct (assoc y te) as [[]|] eqn:A2; try discriminate.
      destruct (tidx x te) as [i|] eqn:Ix; [|discriminate].
      destruct (tidx y te) as [j|] eqn:Iy; [|discriminate].
      destruct (Nat.leb_spec j i) as [L|]; [|discriminate]. cbn [andb]. intros [= <-].
      destruct (env_assoc _ _ _ _ _ _ EO V A) as (v & A' & B & C & D).
      destruct (holds_point_inv _ B) as [q ->]. destruct (D q eq_refl) as (D1 & D2 & D3).
      destruct (env_assoc _ _ _ _ _ _ EO V A2) as (v & A2' & B' & C' & D').
      destruct (holds_point_inv _ B') as [q' ->]. destruct (D' q' eq_refl) as (D1' & D2' & D3').
      pose proof (env_order _ _ _ _ _ _ _ _ _ _ EO V Ix Iy L A' A2') as O.
      rewrite A', A2'. cbn [as_point bbind].
      destruct (ex_ok _ WF q q' D1 D1' O) as (r & -> & E1 & E2 & E3). cbn [bbind].
      pose proof (sb_mono _ WF _ _ D1' V D3').
      eexists. split; [reflexivity|]. split; [apply holds_ext|]. split.
      + constructor; [|constructor]. unfold inside. lia.
      + intros p0 tags TO X. destruct (assoc x tags) as [[]|] eqn:E; try discriminate.
        pose proof (tags_assoc _ _ _ _ _ TO E A') as (_ & _ & S). specialize (S q eq_refl). subst q.
        apply starts_ext. auto.
    - (* BUnit *) intros [= <-]. eexists. split; [reflexivity|]. split; [apply holds_unit|].
      split; [constructor|]. intros. apply starts_simple; discriminate || reflexivity.
    - (* BNil *) intros [= <-]. eexists. split; [reflexivity|]. split; [apply holds_vlist; intros v []|].
      split; [constructor|]. intros. apply starts_simple; discriminate || reflexivity.
    - (* BNone *) intros [= <-]. eexists. split; [reflexivity|]. split; [apply holds_none|].
      split; [constructor|]. intros. apply starts_simple; discriminate || reflexivity.
    - (* BSome *) destruct (binfer te b) as [u|]; [|discriminate]. intros [= <-].
      destruct (IH u eq_refl) as (v & -> & H & I & _). cbn [bbind].
      eexists. split; [reflexivity|]. split; [now apply holds_some|]. split; [exact I|].
      intros. apply starts_simple; discriminate || reflexivity.
    - (* BSingle *) destruct (binfer te b) as [u|]; [|discriminate]. intros [= <-].
      destruct (IH u eq_refl) as (v & -> & H & I & _). cbn [bbind].
      eexists. split; [reflexivity|]. split; [apply holds_vlist; intros w [<-|[]]; auto|]. split.
      + apply vin_list. intros w [<-|[]]; auto.
      + intros. apply starts_simple; discriminate || reflexivity.
    - (* BIntoAppend *) destruct (binfer te b) as [u|]; [|discriminate].
      destruct (IH u eq_refl) as (v & -> & H & I & _). cbn [bbind].
      destruct u; try discriminate; intros [= <-].
      + destruct (holds_opt _ _ H) as [->|(w & -> & Hw)].
        * eexists. split; [reflexivity|]. split; [apply holds_vlist; intros v []|].
          split; [constructor|]. intros. apply starts_simple; discriminate || reflexivity.
        * eexists. split; [reflexivity|]. split; [apply holds_vlist; intros v [<-|[]]; auto|]. split.
          -- apply vin_list. intros v [<-|[]]; exact I.
          -- intros. apply starts_simple; discriminate || reflexivity.
      + destruct (holds_list _ _ H) as (l & -> & Hl).
        eexists. split; [reflexivity|]. split; [auto|]. split; [exact I|].
        intros. apply starts_simple; discriminate || reflexivity.
    - (* BUnwrapNil *) destruct (binfer te b) as [u|]; [|discriminate].
      destruct (IH u eq_refl) as (v & -> & H & I & _). cbn [bbind].
      destruct u as [| | | | | |[]| | |]; try discriminate; intros [= <-].
      destruct (holds_opt _ _ H) as [->|(w & -> & Hw)].
      + eexists. split; [reflexivity|]. split; [apply holds_vlist; intros v []|].
        split; [constructor|]. intros. discriminate.
      + eexists. split; [reflexivity|]. split; [exact Hw|]. split; [exact I|]. intros; discriminate.
    - (* BUnwrapOr *) destruct (binfer te b) as [u|]; [|discriminate].
      destruct u; try discriminate.
      destruct (binfer te d) as [u'|]; [|discriminate].
      intros J. apply join_ub in J. destruct J as [J1 J2].
      destruct (IH _ eq_refl) as (v & -> & H & I & _). cbn [bbind].
      destruct (holds_opt _ _ H) as [->|(w & -> & Hw)].
      + destruct (IHd _ eq_refl) as (v & -> & H' & I' & _). eexists. split; [reflexivity|].
        split; [eapply holds_le; eauto|]. split; [auto|]. intros; discriminate.
      + eexists. split; [reflexivity|]. split; [eapply holds_le; eauto|]. split; [exact I|]. intros; discriminate.
    - (* BMk *) destruct (struct_fields k) as [fields|] eqn:SF; [|discriminate].
      match goal with |- (if ?c then _ else _) = _ -> _ => destruct c eqn:C end; [|discriminate].
      intros [= <-].
      match goal with |- exists v, bbind (?g fs) _ = _ /\ _ =>
        assert (exists l, g fs = BOk l /\ Forall2 (fun v f => typed v (snd (fst f))) l fields /\
                  vin lo (sb p) (VList l) /\
                  forall p0 tags, tags_ok p0 tags e -> bxs tags (BMk k fs) = true ->
                     match l with [] => True | v :: _ => starts p0 v end) as (l & G1 & G2 & G3 & G4)
      end.
      { clear SF. revert fields C. induction fs as [|[f b] fs IHf]; intros [|[[f' t'] m] fields] C; try discriminate.
        - exists []. split; [reflexivity|]. split; [constructor|]. split; [constructor|auto].
        - apply andb_true_iff in C. destruct C as [C C3]. apply andb_true_iff in C. destruct C as [C1 C2].
          inversion IH as [|q r IHb IHr]; subst. cbn [snd] in IHb.
          destruct (binfer te b) as [u|]; [|discriminate].
          destruct (IHb u eq_refl) as (v & Ev & Hv & Iv & Sv).
          destruct (IHf IHr fields C3) as (l & El & Hl & Il & _).
          exists (v :: l). rewrite Ev. cbn [bbind]. rewrite El. cbn [bbind]. split; [reflexivity|].
          split; [constructor; auto; cbn; apply Hv; exact C2|]. split.
          + apply vin_list. intros w [<-|Hw]; [auto|]. eapply vin_in; eauto.
          + intros p0 tags TO X. cbn [bxs] in X. eauto. }
      rewrite G1. cbn [bbind]. eexists. split; [reflexivity|]. split.
      { apply typed_holds; [eapply struct_not_hole; eauto|]. econstructor; eauto. }
      split; [exact G3|].
      intros p0 tags TO X. specialize (G4 p0 tags TO X). destruct l as [|v l].
      + apply starts_simple; discriminate || reflexivity.
      + now apply starts_node.
    - (* BVariant *) destruct (enum_variants en) as [vs|] eqn:EV; [|discriminate].
      destruct (assoc vn vs) as [[t'|]|] eqn:A; try discriminate.
      + destruct (binfer te b) as [u|]; [|discriminate].
        destruct (tle u t') eqn:L; [|discriminate]. intros [= <-].
        destruct (IH u eq_refl) as (v & -> & H & I & S). cbn [bbind].
        eexists. split; [reflexivity|]. split.
        { apply typed_holds; [eapply enum_not_hole; eauto|]. econstructor; eauto. }
        split; [exact I|]. intros. apply starts_var. eauto.
      + destruct (binfer te b) as [u|]; [|discriminate]. destruct u; try discriminate. intros [= <-].
        destruct (IH _ eq_refl) as (v & -> & H & I & S). cbn [bbind].
        apply holds_unit_inv in H. subst v.
        eexists. split; [reflexivity|]. split.
        { apply typed_holds; [eapply enum_not_hole; eauto|]. eapply T_Var0; eauto. }
        split; [exact I|]. intros. apply starts_var. eauto.
    - (* BPair *) destruct (binfer te a) as [u|]; [|discriminate].
      destruct (binfer te b) as [u'|]; [|discriminate]. intros [= <-].
      destruct (IHa _ eq_refl) as (v & -> & H & I & _). cbn [bbind].
      destruct (IHb _ eq_refl) as (v' & -> & H' & I' & _). cbn [bbind].
      eexists. split; [reflexivity|]. split; [now apply holds_vpair|]. split.
      + apply vin_pair. auto.
      + intros. apply starts_simple; discriminate || reflexivity.
    - (* BFst *) destruct (binfer te b) as [u|]; [|discriminate]. destruct u; try discriminate.
      intros [= <-]. destruct (IH _ eq_refl) as (v & -> & H & I & _). cbn [bbind].
      apply holds_pair in H. destruct H as (x & y & -> & Hx & Hy). apply vin_pair in I.
      eexists. split; [reflexivity|]. split; [auto|]. split; [tauto|]. intros; discriminate.
    - (* BSnd *) destruct (binfer te b) as [u|]; [|discriminate]. destruct u; try discriminate.
      intros [= <-]. destruct (IH _ eq_refl) as (v & -> & H & I & _). cbn [bbind].
      apply holds_pair in H. destruct H as (x & y & -> & Hx & Hy). apply vin_pair in I.
      eexists. split; [reflexivity|]. split; [auto|]. split; [tauto|]. intros; discriminate.
    - (* BField *) destruct (binfer te b) as [u|]; [|discriminate]. destruct u; try discriminate.
      destruct (struct_fields name) as [fields|] eqn:SF; [|discriminate].
      destruct (enum_variants name) eqn:EV; [discriminate|].
      destruct (field_index f fields) as [i|] eqn:FI; [|discriminate].
      destruct (nth_error fields i) as [[[f' t'] m]|] eqn:N; [|discriminate]. cbn. intros [= <-].
      destruct (IH _ eq_refl) as (v & -> & H & I & S). cbn [bbind].
      apply holds_typed in H. destruct (typed_struct _ _ _ H SF EV) as (fs & -> & H2).
      unfold get_field. rewrite SF, FI.
      assert (exists w, nth_error fs i = Some w /\ typed w t') as (w & Nw & Tw).
      { clear -H2 N. revert i N. induction H2; intros [|i] N; try discriminate; cbn in *.
        - injection N as ->. eauto.
        - eauto. }
      rewrite Nw. eexists. split; [reflexivity|]. split.
      { (* the type of a field has no hole *)
        apply typed_holds; [|exact Tw].
        assert (forallb (fun s => forallb (fun f => hole_free (snd (fst f))) (snd s))
                        (structs ++ internal_structs) = true) as HF by (vm_compute; reflexivity).
        rewrite forallb_forall in HF. apply assoc_in in SF. apply HF in SF.
        rewrite forallb_forall in SF. apply nth_error_In in N. exact (SF _ N). }
      split; [eapply vin_in; [exact I|eapply nth_error_In; eauto]|].
      intros p0 tags TO X. apply andb_true_iff in X. destruct X as [X1 X2].
      apply String.eqb_eq in X1. subst f.
      pose proof schema_is_ok as SO. unfold schema_ok in SO. rewrite forallb_forall in SO.
      apply assoc_in in SF. specialize (SO _ SF). cbn [snd] in SO. rewrite FI in SO.
      destruct i as [|i]; [|discriminate].
      destruct fields as [|[[f0 []] m0] fields]; try discriminate.
      cbn in N. injection N as <- <- <-. inversion Tw; subst.
      destruct fs as [|x fs]; [discriminate|]. cbn in Nw. injection Nw as ->.
      specialize (S p0 tags TO X2). destruct S as (S1 & _ & _). apply starts_ext. apply S1. reflexivity.
    - (* BExtentOf *) destruct (binfer te b) as [u|]; [|discriminate].
      destruct (has_ext 4 u) eqn:HE; [|discriminate]. intros [= <-].
      destruct (IH _ eq_refl) as (v & -> & H & I & S). cbn [bbind].
      destruct (has_ext_ok _ _ _ HE (holds_typed _ _ H)) as [x Ex]. rewrite Ex.
      eexists. split; [reflexivity|]. split; [apply holds_ext|]. split.
      + constructor; [|constructor]. eapply extent_of_inside; eauto.
      + intros p0 tags TO X. apply starts_ext. destruct (S p0 tags TO X) as (S1 & _ & _). auto.
    - (* BIsSome *) destruct (binfer te b) as [u|]; [|discriminate]. destruct u; try discriminate.
      intros [= <-]. destruct (IH _ eq_refl) as (v & -> & H & I & _). cbn [bbind].
      destruct (holds_opt _ _ H) as [->|(w & -> & Hw)];
        (eexists; split; [reflexivity|]; split; [apply holds_bool|]; split; [constructor|];
         intros; apply starts_simple; discriminate || reflexivity).
    - (* BOptFst *) destruct (binfer te b) as [u|]; [|discriminate].
      destruct u as [| | | | | | | | | ]; try discriminate. destruct u; try discriminate.
      intros [= <-]. destruct (IH _ eq_refl) as (v & -> & H & I & _). cbn [bbind].
      destruct (holds_opt _ _ H) as [->|(w & -> & Hw)].
      + eexists. split; [reflexivity|]. split; [apply holds_none|]. split; [constructor|].
        intros; apply starts_simple; discriminate || reflexivity.
      + apply holds_pair in Hw. destruct Hw as (x & y & -> & Hx & Hy).
        assert (vin lo (sb p) (VPair x y)) as I' by exact I. apply vin_pair in I'.
        eexists. split; [reflexivity|]. split; [now apply holds_some|]. split; [exact (proj1 I')|].
        intros; apply starts_simple; discriminate || reflexivity.
    - (* BOptSnd *) destruct (binfer te b) as [u|]; [|discriminate].
      destruct u as [| | | | | |u| | |]; try discriminate. destruct u as [| | | | | | | |u1 u2|]; try discriminate.
      destruct u2; try discriminate.
      intros [= <-]. destruct (IH _ eq_refl) as (v & -> & H & I & _). cbn [bbind].
      destruct (holds_opt _ _ H) as [->|(w & -> & Hw)].
      + eexists. split; [reflexivity|]. split; [apply holds_none|]. split; [constructor|].
        intros; apply starts_simple; discriminate || reflexivity.
      + apply holds_pair in Hw. destruct Hw as (x & y & -> & Hx & Hy).
        assert (vin lo (sb p) (VPair x y)) as I' by exact I. apply vin_pair in I'.
        eexists. split; [reflexivity|]. split; [auto|]. split; [exact (proj2 I')|].
        intros. destruct (holds_opt _ _ Hy) as [->|(z & -> & _)];
          apply starts_simple; discriminate || reflexivity.
    - (* BStmts *)
      intros H0. destruct (binfer te s) as [ts|]; [|discriminate].
      destruct (binfer te u) as [tu|].
      2: { repeat match type of H0 with match ?x with _ => _ end = _ => destruct x; try discriminate end. }
      assert (ts = TList (TN "Statement") /\ tu = TBool /\ t = TList (TN "Statement")) as (-> & -> & ->).
      { repeat match type of H0 with match ?x with _ => _ end = _ => destruct x; try discriminate end.
        injection H0 as <-. auto. }
      clear H0. destruct (IHs _ eq_refl) as (v & -> & H & I & _). cbn [bbind].
      destruct (IHu _ eq_refl) as (v' & -> & H' & I' & _). cbn [bbind].
      apply holds_list in H. destruct H as (l & -> & Hl).
      apply holds_bool_inv in H'. destruct H' as (bb & ->).
      assert (forall v, In v l -> typed v (TN "Statement")) as Tl by (intros; apply holds_typed; auto).
      destruct (block_split_ok l bb lo (sb p) Tl I) as (B1 & B2 & B3 & B4).
      eexists. split; [reflexivity|]. split.
      { apply holds_vlist. intros w Hw. apply typed_holds; [reflexivity|]. auto. }
      split; [exact B2|]. intros; apply starts_simple; discriminate || reflexivity.
    - (* BTrailing *)
      intros H0. destruct (binfer te s) as [ts|]; [|discriminate].
      destruct (binfer te u) as [tu|].
      2: { repeat match type of H0 with match ?x with _ => _ end = _ => destruct x; try discriminate end. }
      assert (ts = TList (TN "Statement") /\ tu = TBool /\ t = TOpt (TN "Attributed<Expression>")) as (-> & -> & ->).
      { repeat match type of H0 with match ?x with _ => _ end = _ => destruct x; try discriminate end.
        injection H0 as <-. auto. }
      clear H0. destruct (IHs _ eq_refl) as (v & -> & H & I & _). cbn [bbind].
      destruct (IHu _ eq_refl) as (v' & -> & H' & I' & _). cbn [bbind].
      apply holds_list in H. destruct H as (l & -> & Hl).
      apply holds_bool_inv in H'. destruct H' as (bb & ->).
      assert (forall v, In v l -> typed v (TN "Statement")) as Tl by (intros; apply holds_typed; auto).
      destruct (block_split_ok l bb lo (sb p) Tl I) as (B1 & B2 & B3 & B4).
      eexists. split; [reflexivity|]. split; [apply typed_holds; [reflexivity|exact B3]|].
      split; [exact B4|]. intros. inversion B3; subst; apply starts_simple; discriminate || reflexivity.
    - (* BParen *)
      intros H0. destruct (binfer te s) as [ts|]; [|discriminate]. destruct ts; try discriminate.
      destruct (binfer te u) as [tu|]; [|discriminate].
      destruct (tle tu (tailed_ty (TN "Attributed<Expression>"))) eqn:L; [|discriminate].
      injection H0 as <-.
      destruct (IHs _ eq_refl) as (v & -> & H & I & S). cbn [bbind].
      destruct (IHu _ eq_refl) as (v' & -> & H' & I' & _). cbn [bbind].
      apply holds_ext_inv in H. destruct H as [x ->].
      apply (holds_le _ _ _ H') in L. apply holds_pair in L. destruct L as (y & z & -> & Hy & Hz).
      apply holds_pair in Hz. destruct Hz as (n & c & -> & Hn & Hc).
      apply holds_nat_inv in Hn. destruct Hn as [n' ->]. apply holds_list in Hy. destruct Hy as (l & -> & Hl).
      apply vin_pair in I'. destruct I' as [I1 _].
      assert (inside lo (sb p) x) as Ix by (inversion I; auto).
      destruct (paren_ok x l n' lo (sb p) Ix I1 (fun v Hv => holds_typed _ _ (Hl v Hv))) as (P1 & P2 & P3 & P4).
      eexists. split; [reflexivity|]. split; [apply typed_holds; [reflexivity|exact P1]|].
      split; [exact P2|]. intros p0 tags TO X. destruct (S p0 tags TO X) as (S1 & _ & _).
      destruct P4 as (a & b & c' & P4). repeat split; intros; try congruence.
      rewrite P3 in H. injection H as <-. apply S1. reflexivity.
    - (* BNumber *) destruct (binfer te b) as [u|]; [|discriminate]. destruct u; try discriminate.
      intros [= <-]. destruct (IH _ eq_refl) as (v & -> & H & I & S). cbn [bbind].
      apply holds_num_inv in H. destruct H as [n ->].
      destruct (convert_number_ok n lo (sb p) I) as [A B].
      eexists. split; [reflexivity|]. split; [apply typed_holds; [reflexivity|exact A]|].
      split; [exact B|]. intros p0 tags TO X. destruct (S p0 tags TO X) as (_ & S2 & _).
      unfold convert_number. apply starts_node. apply starts_ext. auto.
  Qed.
End Env.
