(** Soundness of the analysis of [Drops]: where the tokens of a list are dropped. *)

From Coq Require Import String List NArith Arith Bool Lia.
From Verif Require Import Base Peresil Token Schema Value Nt Grammar Points Table Static Typing FileToks Split SpanSpec MarkSpec LandSpec Deriv DerivMono.
From Verif Require Import Marks MarksOk Spans SpansOk SpansDer Expect Honest CoverSpec Cover CoverOk CoverTidy DropSpec Drops.
Import ListNotations.
Local Open Scope string_scope.
Local Open Scope list_scope.
Local Open Scope nat_scope.

Lemma ntail_ok n W : ntail n = Some W -> exists a, ttail (table n) = Some a /\ incl a W.
Proof.
  intros H. pose proof ntail_checked as C. rewrite forallb_forall in C. specialize (C n (all_nts_complete n)). rewrite H in C. now apply ksub_ok.
Qed.
Lemma nstart_ok n : N.land (tstart (table n)) (nstart n) = tstart (table n).
Proof. pose proof nstart_checked as H. rewrite forallb_forall in H. specialize (H n (all_nts_complete n)). now apply N.eqb_eq in H. Qed.
Lemma gneat_table n : gneat (table n) = true.
Proof. pose proof gneat_checked as H. rewrite forallb_forall in H. exact (H n (all_nts_complete n)). Qed.

Section DropsOk.
  Variable toks : list token.
  Hypothesis WF : wf_toks toks.
  Hypothesis NUM : forall i n, nth_error toks i = Some (TkNumber n) -> num_ord n.
  Notation valid := (valid toks).
  Notation sb := (sb toks).
  Notation holds := (holds toks).
  Notation reads := (CoverOk.reads toks).

  (** * What is read ends where the parser is *)

  Fixpoint up (q : point) (v : val) : Prop :=
    match v with
    | VExt e => snd e <= sb q
    | VNum n => Forall (fun e => snd e <= sb q) (number_extents n)
    | VPoint r => valid r /\ pos r <= pos q
    | VSome v | VVar _ _ v => up q v
    | VPair a b => up q a /\ up q b
    | VList l => fold_right (fun x P => up q x /\ P) True l
    | VNode _ fs => fold_right (fun x P => up q x /\ P) True fs
    | _ => True
    end.
  Definition eup (q : point) (e : env) : Prop := Forall (fun b => up q (snd b)) e.

  Lemma up_all q l : fold_right (fun x P => up q x /\ P) True l <-> Forall (up q) l.
  Proof.
    induction l as [|v l IH]; cbn [fold_right]; [split; [constructor|auto]|]. rewrite IH. split.
    - intros []. now constructor.
    - intros H. inversion H; auto.
  Qed.
  Lemma up_list q l : up q (VList l) <-> Forall (up q) l.
  Proof. apply up_all. Qed.
  Lemma up_node q k fs : up q (VNode k fs) <-> Forall (up q) fs.
  Proof. apply up_all. Qed.

  Lemma up_mono p q v : valid p -> valid q -> pos p <= pos q -> up p v -> up q v.
  Proof.
    intros Vp Vq L. pose proof (sb_mono _ WF _ _ Vp Vq L) as S.
    induction v as [e|b|n|r|n| | |v IH|l IH|a b IHa IHb|k fs IH|en vn v IH] using val_ind'; cbn [up]; auto.
    - lia.
    - intros [A B]. split; [auto|lia].
    - apply Forall_impl. intros e. lia.
    - rewrite !up_all. intros H. rewrite Forall_forall in *. auto.
    - intros [A B]. auto.
    - rewrite !up_all. intros H. rewrite Forall_forall in *. auto.
  Qed.

  Lemma eup_mono p q e : valid p -> valid q -> pos p <= pos q -> eup p e -> eup q e.
  Proof. intros Vp Vq L. apply Forall_impl. intros b. now apply up_mono. Qed.

  Lemma up_hi q v : up q v -> hi_le (sb q) v.
  Proof.
    unfold hi_le. induction v as [e|b|n|r|n| | |v IH|l IH|a b IHa IHb|k fs IH|en vn v IH] using val_ind'; cbn [up extents]; auto.
    - rewrite up_all. induction l as [|v l IHl]; cbn [flat_map]; [constructor|]. apply Forall_cons_iff in IH as [I1 I2]. intros H.
      apply Forall_cons_iff in H as [H1 H2]. apply Forall_app. split; auto.
    - intros [A B]. apply Forall_app. auto.
    - rewrite up_all. induction fs as [|v l IHl]; cbn [flat_map]; [constructor|]. apply Forall_cons_iff in IH as [I1 I2]. intros H.
      apply Forall_cons_iff in H as [H1 H2]. apply Forall_app. split; auto.
  Qed.

  Lemma up_field q f v w : up q v -> get_field f v = Some w -> up q w.
  Proof. intros L G. apply get_field_in in G as (k & fs & -> & J). apply up_node in L. rewrite Forall_forall in L. auto. Qed.

  Lemma assoc_up q e x v : eup q e -> assoc x e = Some v -> up q v.
  Proof. intros E A. apply SpansOk.assoc_in in A. unfold eup in E. rewrite Forall_forall in E. exact (E _ A). Qed.

  Lemma bind_up q pt : forall v e e1, up q v -> eup q e -> bind_pat pt v e = Some e1 -> eup q e1.
  Proof.
    induction pt as [x|p1 IH1 p2 IH2]; intros v e e1 L E B; cbn [bind_pat] in B.
    - injection B as <-. constructor; auto.
    - destruct v; try discriminate. destruct (bind_pat p1 v1 e) as [e2|] eqn:B1; [|discriminate]. destruct L as [L1 L2]. eauto.
  Qed.

  Lemma block_up q l b : Forall (up q) l -> Forall (up q) (fst (block_split l b)) /\ up q (snd (block_split l b)).
  Proof.
    intros F. destruct (block_cases l b) as [E|(en & l' & v & L & E)]; rewrite E; cbn [fst snd]; [split; [auto|exact I]|].
    subst l. apply Forall_app in F as [F1 F2]. inversion F2; subst. split; [auto|]. assumption.
  Qed.

  Lemma ex_up p q x : valid p -> valid q -> pos p <= pos q -> ex toks p q = BOk x -> snd x <= sb q.
  Proof. intros Vp Vq L X. destruct (ex_ok _ WF _ _ Vp Vq L) as (x' & X' & _ & _ & E). rewrite X in X'. injection X' as <-. exact E. Qed.

  Lemma as_point_ok x e r : as_point (assoc x e) = BOk r -> assoc x e = Some (VPoint r).
  Proof. destruct (assoc x e) as [[]|]; cbn [as_point]; try discriminate. now intros [= ->]. Qed.

  Section Build.
    Variables (e : env) (q : point) (Vq : valid q) (E : eup q e).
    Notation bev := (beval toks q e).

    Lemma beval_up b : forall v, bev b = BOk v -> up q v.
    Proof.
      induction b as [y|y|y z| | | |b IH|b IH|b IH|b IH|b d IH IHd|k fs IH|en vn b IH|a b IHa IHb|b IH|b IH
                   |f b IH|b IH|b IH|b IH|b IH|s t IHs IHu|s t IHs IHu|s t IHs IHu|b IH] using bexp_ind'; intros v B; cbn [beval] in B.
      - destruct (assoc y e) as [w|] eqn:A; [|discriminate]. injection B as <-. eapply assoc_up; eauto.
      - destruct (as_point (assoc y e)) as [r|] eqn:A; cbn [bbind] in B; [|discriminate]. apply as_point_ok in A. destruct (assoc_up _ _ _ _ E A) as [Vr Lr].
        destruct (ex toks r q) as [x|] eqn:X; cbn [bbind] in B; [|discriminate]. injection B as <-. exact (ex_up _ _ _ Vr Vq Lr X).
      - destruct (as_point (assoc y e)) as [r|] eqn:A; cbn [bbind] in B; [|discriminate]. destruct (as_point (assoc z e)) as [r'|] eqn:A'; cbn [bbind] in B; [|discriminate].
        apply as_point_ok in A, A'. destruct (assoc_up _ _ _ _ E A) as [Vr Lr]. destruct (assoc_up _ _ _ _ E A') as [Vr' Lr'].
        destruct (ex toks r r') as [x|] eqn:X; cbn [bbind] in B; [|discriminate]. injection B as <-. cbn [up].
        pose proof (sb_mono _ WF _ _ Vr' Vq Lr'). destruct (le_lt_dec (pos r) (pos r')) as [L|L]; [pose proof (ex_up _ _ _ Vr Vr' L X); lia|].
        exfalso. pose proof (valid_rank _ _ Vr) as VR. destruct Vr as (t & Ht & _). destruct Vr' as (t' & Ht' & _). unfold ex in X. rewrite Ht in X. unfold pos in L.
        destruct (Nat.compare_spec (off r) (off r')) as [O|O|O]; [|lia|discriminate].
        destruct (Nat.compare_spec (sub_rank (sub r)) (sub_rank (sub r'))); try discriminate; rewrite O in *; lia.
      - injection B as <-. exact I.
      - injection B as <-. exact I.
      - injection B as <-. exact I.
      - destruct (bev b) as [w|] eqn:U; cbn [bbind] in B; [|discriminate]. injection B as <-. exact (IH _ eq_refl).
      - destruct (bev b) as [w|] eqn:U; cbn [bbind] in B; [|discriminate]. injection B as <-. split; [exact (IH _ eq_refl)|exact I].
      - destruct (bev b) as [w|] eqn:U; cbn [bbind] in B; [|discriminate]. specialize (IH _ eq_refl).
        destruct w; try discriminate; injection B as <-; [exact I|split; [exact IH|exact I]|exact IH].
      - destruct (bev b) as [w|] eqn:U; cbn [bbind] in B; [|discriminate]. specialize (IH _ eq_refl).
        destruct w; try discriminate; injection B as <-; [exact I|exact IH].
      - destruct (bev b) as [w|] eqn:U; cbn [bbind] in B; [|discriminate]. specialize (IH _ eq_refl).
        destruct w; try discriminate; [exact (IHd _ B)|]. injection B as <-. exact IH.
      - match type of B with bbind ?r _ = _ => destruct r as [vs|] eqn:G; cbn [bbind] in B; [|discriminate] end. injection B as <-.
        apply fields_eval in G. apply up_node.
        induction G as [|f v fs vs G1 G2 IHg]; [constructor|]. apply Forall_cons_iff in IH as [IH1 IH2]. constructor; auto.
      - destruct (bev b) as [w|] eqn:U; cbn [bbind] in B; [|discriminate]. injection B as <-. exact (IH _ eq_refl).
      - destruct (bev a) as [w|] eqn:U; cbn [bbind] in B; [|discriminate].
        destruct (bev b) as [w'|] eqn:U'; cbn [bbind] in B; [|discriminate]. injection B as <-. split; auto.
      - destruct (bev b) as [w|] eqn:U; cbn [bbind] in B; [|discriminate]. specialize (IH _ eq_refl).
        destruct w; try discriminate. injection B as <-. apply IH.
      - destruct (bev b) as [w|] eqn:U; cbn [bbind] in B; [|discriminate]. specialize (IH _ eq_refl).
        destruct w; try discriminate. injection B as <-. apply IH.
      - destruct (bev b) as [w|] eqn:U; cbn [bbind] in B; [|discriminate]. specialize (IH _ eq_refl).
        destruct (get_field f w) as [u|] eqn:U'; [|discriminate]. injection B as <-. eapply up_field; eauto.
      - destruct (bev b) as [w|] eqn:U; cbn [bbind] in B; [|discriminate]. specialize (IH _ eq_refl). apply up_hi in IH.
        destruct (extent_of w) as [x|] eqn:X; [|discriminate]. injection B as <-. apply extent_of_in in X. unfold hi_le in IH. rewrite Forall_forall in IH. exact (IH _ X).
      - destruct (bev b) as [w|] eqn:U; cbn [bbind] in B; [|discriminate].
        destruct w; try discriminate; injection B as <-; exact I.
      - destruct (bev b) as [w|] eqn:U; cbn [bbind] in B; [|discriminate]. specialize (IH _ eq_refl).
        destruct w as [| | | | | | |w| | | |]; try discriminate; [injection B as <-; exact I|]. destruct w; try discriminate. injection B as <-. apply IH.
      - destruct (bev b) as [w|] eqn:U; cbn [bbind] in B; [|discriminate]. specialize (IH _ eq_refl).
        destruct w as [| | | | | | |w| | | |]; try discriminate; [injection B as <-; exact I|]. destruct w; try discriminate. injection B as <-. apply IH.
      - destruct (bev s) as [w|] eqn:U; cbn [bbind] in B; [|discriminate].
        destruct (bev t) as [w'|] eqn:U'; cbn [bbind] in B; [|discriminate].
        destruct w as [| | | | | | | |l| | |]; try discriminate. destruct w'; try discriminate. injection B as <-.
        apply up_list. apply block_up. apply up_list. auto.
      - destruct (bev s) as [w|] eqn:U; cbn [bbind] in B; [|discriminate].
        destruct (bev t) as [w'|] eqn:U'; cbn [bbind] in B; [|discriminate].
        destruct w as [| | | | | | | |l| | |]; try discriminate. destruct w'; try discriminate. injection B as <-.
        apply block_up. apply up_list. auto.
      - destruct (bev s) as [w|] eqn:U; cbn [bbind] in B; [|discriminate]. specialize (IHs _ eq_refl).
        destruct (bev t) as [w'|] eqn:U'; cbn [bbind] in B; [|discriminate]. specialize (IHu _ eq_refl).
        destruct w as [x| | | | | | | | | | |]; try discriminate. destruct w' as [| | | | | | | | |w1 w2| |]; try discriminate.
        destruct w1 as [| | | | | | | |l| | |]; try discriminate. destruct w2 as [| | | | | | | | |w3 w4| |]; try discriminate. destruct w3 as [| |nn| | | | | | | | |]; try discriminate.
        injection B as <-. destruct IHu as [IHl _]. pose proof IHl as IHl'. apply up_list in IHl'.
        unfold paren_or_tuple. destruct l as [|v [|w l]]; [|destruct nn|]; cbn [up fold_right] in *; intuition.
      - destruct (bev b) as [w|] eqn:U; cbn [bbind] in B; [|discriminate]. specialize (IH _ eq_refl). destruct w as [| | | |n| | | | | | |]; try discriminate. injection B as <-.
        cbn [up] in IH. unfold convert_number. destruct n as [rd x y f ee ss u]. unfold number_extents in IH. cbn in *. rewrite Forall_forall in IH.
        destruct f, ee, ss; cbn; repeat split; try exact I; apply IH; cbn; tauto.
    Qed.
  End Build.

  Definition der_u (e : env) (p q : point) (v : val) : Prop := valid p -> eup p e -> up q v.
  Definition ders_u (e : env) (p : point) (e' : env) (q : point) : Prop := valid p -> eup p e -> eup q e'.
  Definition items_u (e : env) (p q : point) (vs : list val) : Prop := valid p -> eup p e -> Forall (up q) vs.
  Definition etree_u (c : car val) : Prop := valid (c_spt c) -> up (c_ept c) (c_val c).

  Lemma number_up p q n r : valid p -> valid q -> into_simple n = Some r -> up q (VNum n) -> up q (VExt r).
  Proof.
    intros Vp Vq S. cbn [up]. unfold into_simple, number_extents in *. intros U.
    destruct (n_radix n), (n_fractional n), (n_exponent n), (n_type_suffix n), (n_underscores n); try discriminate; injection S as <-;
      apply Forall_cons_iff in U as [U1 U2]; apply Forall_cons_iff in U2 as [U2 _]; auto.
  Qed.

  Ltac ups := cbn [up fold_right]; repeat split; try exact I; auto.

  Lemma postfix_u c e op c' : valid (c_spt c) -> valid (c_ept c) -> valid e -> pos (c_spt c) <= pos (c_ept c) -> pos (c_ept c) <= pos e -> up e (c_val c) -> up e op ->
    apply_one toks [c] (OpPostfix op) (c_ept c) e = AOk [c'] -> up e (c_val c').
  Proof.
    intros V V1 Ve L1 Le Mc Mo A. destruct op as [| | | | | | | | | | |en' k w]; cbn [apply_one] in A; try discriminate. cbn [up] in Mo.
    repeat match type of A with (if ?b then _ else _) = _ => destruct b end; try discriminate;
      apply apply_postfix_val in A as (x & X & ->); apply ex_up in X; auto; try lia; unfold into_attributed, expr_node; ups.
  Qed.

  Theorem up_der :
    (forall x e p q v, der toks x e p q v -> der_u e p q v) /\
    (forall steps e p e' q, ders toks steps e p e' q -> ders_u e p e' q) /\
    (forall so f e p q vs, items toks so f e p q vs -> items_u e p q vs) /\
    (forall so e p q, between toks so e p q -> True) /\
    (forall c, etree toks c -> etree_u c).
  Proof.
    apply (der_all toks (fun x => der_u) (fun steps => ders_u) (fun so f => items_u) (fun so e p q => True) etree_u); auto.
    - intros m err e p q v pm N K V E. pose proof (tok_ok _ WF m err pm p V N) as O. rewrite K in O. destruct O as [_ O]. pose proof (tks_in _ _ _ _ _ O) as T.
      unfold vin in T. destruct m as [k|].
      + destruct (tok_ext _ WF _ _ _ _ _ _ V N K) as (x & -> & _). cbn [extents] in T. inversion T as [|? ? T1 _]; subst. unfold inside in T1. cbn [up]. lia.
      + destruct (tk_number _ _ _ _ _ _ V K) as (n & -> & _). cbn [extents] in T. cbn [up]. eapply Forall_impl; [|exact T]. unfold inside. intros z. lia.
    - intros n e p q v D IH V E. apply IH; [auto|constructor].
    - intros e p V E. cbn [up]. auto.
    - intros steps b e e' p q v D IH B V E. destruct (ders_mono _ WF _ _ _ _ _ D V) as [Vq L]. exact (beval_up _ _ Vq (IH V E) _ _ B).
    - intros x e p V E. exact I.
    - intros x e p q l D IH V E. apply up_list. exact (IH V E).
    - intros app sep f e p q l vs n b B D IH Ch V E. destruct (items_mono _ WF _ _ _ _ _ _ D V) as [Vq L].
      unfold vtailed. split; [|split; exact I]. apply up_list. apply Forall_app. split; [|exact (IH V E)].
      apply up_list. apply (up_mono p); auto. exact (beval_up _ _ V E _ _ B).
    - intros sep f e p q vs n b D IH NE Ch V E. split; [|split; exact I]. apply up_list. exact (IH V E).
    - intros sep f e p p1 q vs Bt _ D IH Ch V E. destruct (between_mono _ WF _ _ _ _ Bt V) as [V1 L1].
      apply up_list. apply (IH V1). now apply (eup_mono p).
    - intros sep f e p V E. exact I.
    - intros sep f e p q vs n b D IH Ch V E. split; [|split; exact I]. apply up_list. exact (IH V E).
    - intros o c e p q v pm S K V E. destruct (der_mono _ WF _ _ _ _ _ (D_Nested toks o c e p q v pm S K) V) as [Vq L].
      unfold nested in K. destruct (ex toks p _) as [x|] eqn:X; [|discriminate]. injection K as <- <-. exact (ex_up _ _ _ V Vq L X).
    - intros x e p q v r D IH X V E. destruct (der_mono _ WF _ _ _ _ _ D V) as [Vq L]. exact (ex_up _ _ _ V Vq L X).
    - intros x e p q v D IH V E. exact I.
    - intros x err e p q n r D IH S V E. destruct (der_mono _ WF _ _ _ _ _ D V) as [Vq L]. eapply number_up; eauto.
    - intros stmt e c T IH V E. exact (IH V).
    - intros e p V E. exact E.
    - intros pt x steps e p q v e1 e' r D IH B DS IHs V E. destruct (der_mono _ WF _ _ _ _ _ D V) as [V1 L1].
      apply (IHs V1). eapply bind_up; [|eapply eup_mono; [exact V|exact V1|exact L1|exact E]|exact B]. auto.
    - intros so f e p q Vq L _ _ V E. constructor.
    - intros so f e p p1 p2 q v vs D IH Bt _ DI IHi V E. destruct (der_mono _ WF _ _ _ _ _ D V) as [V1 L1]. destruct (between_mono _ WF _ _ _ _ Bt V1) as [V2 L2].
      destruct (items_mono _ WF _ _ _ _ _ _ DI V2) as [V3 L3]. constructor.
      + apply (up_mono p1); auto; lia.
      + apply IHi; [auto|]. apply (eup_mono p); auto; lia.
    - (* an atom *) intros p q en v D IH L V. cbn [c_spt c_ept c_val] in *. exact (IH V (Forall_nil _)).
    - (* a prefix operator *) intros en op s c c' res D IH L T IHt A E1 E2 V. rewrite E1 in V. rewrite E2.
      destruct (der_mono _ WF _ _ _ _ _ D V) as [V1 L1]. destruct (etree_mono _ WF _ T V1) as [V2 L2]. pose proof (IHt V1) as Mc.
      pose proof (up_mono _ _ _ V1 V2 L2 (IH V (Forall_nil _))) as Mo. cbn [up] in Mo.
      apply inv_prefix in D as (m & x & l & w & -> & X & _). cbn [up fold_right] in Mo. destruct Mo as (_ & Ml & Mw & _).
      destruct w as [| | | | | | | | | | |en' k w]; cbn [apply_one] in A; try discriminate. cbn [up] in Mw.
      repeat match type of A with (if ?b then _ else _) = _ => destruct b end; unfold apply_maybe_prefix in A;
        apply apply_prefix_val in A as (y & Y & ->); apply ex_up in Y; auto; try lia; unfold expr_node; ups.
    - intros en op s e c' D IH L A E1 E2 V. rewrite E1 in V. rewrite E2. destruct (der_mono _ WF _ _ _ _ _ D V) as [V1 L1].
      pose proof (IH V (Forall_nil _)) as Mo. cbn [up] in Mo.
      apply inv_prefix in D as (m & x & l & w & -> & X & _). cbn [up fold_right] in Mo. destruct Mo as (_ & Ml & Mw & _).
      destruct w as [| | | | | | | | | | |en' k w]; cbn [apply_one] in A; try discriminate. cbn [up] in Mw.
      repeat match type of A with (if ?b then _ else _) = _ => destruct b; [try discriminate|] end; try discriminate;
        unfold apply_maybe_prefix in A; rewrite X in A; cbn [a_of_b abind] in A; injection A as <-; cbn [c_val];
        apply ex_up in X; auto; unfold expr_node; ups.
    - (* an infix operator *) intros en op l r c' Tl IHl Tr IHr D IH L A E1 E2 V. rewrite E1 in V. rewrite E2.
      destruct (etree_mono _ WF _ Tl V) as [V1 L1]. destruct (der_mono _ WF _ _ _ _ _ D V1) as [V2 L2]. pose proof (IHr V2) as Mr.
      destruct (etree_mono _ WF _ Tr V2) as [V3 L3]. pose proof (up_mono _ _ _ V1 V3 ltac:(lia) (IHl V)) as Ml.
      pose proof (up_mono _ _ _ V2 V3 ltac:(lia) (IH V1 (Forall_nil _))) as Mo. cbn [up] in Mo.
      destruct op as [| | | | | | | | | | |en' k w]; cbn [apply_one] in A; try discriminate. cbn [up] in Mo.
      repeat match type of A with (if ?b then _ else _) = _ => destruct b end; unfold apply_maybe_infix in A; cbn [length Nat.leb] in A;
        apply apply_infix_val in A as (x & X & ->); apply ex_up in X; auto; try lia; unfold into_attributed, expr_node; ups.
    - intros en op l e c' Tl IHl D IH L A E1 E2 V. rewrite E1 in V. rewrite E2. destruct (etree_mono _ WF _ Tl V) as [V1 L1].
      destruct (der_mono _ WF _ _ _ _ _ D V1) as [V2 L2]. pose proof (up_mono _ _ _ V1 V2 ltac:(lia) (IHl V)) as Ml.
      pose proof (IH V1 (Forall_nil _)) as Mo. cbn [up] in Mo. destruct op as [| | | | | | | | | | |en' k w]; cbn [apply_one] in A; try discriminate. cbn [up] in Mo.
      repeat match type of A with (if ?b then _ else _) = _ => destruct b; [try discriminate|] end; try discriminate;
        unfold apply_maybe_infix in A; cbn [length Nat.leb pop_expression abind] in A;
        (destruct (ex toks (c_spt l) e) as [y|] eqn:Y; cbn [a_of_b abind] in A; [|discriminate]); injection A as <-; cbn [c_val];
        apply ex_up in Y; auto; try lia; unfold into_attributed, expr_node; ups.
    - (* a postfix operator *) intros en op c e c' T IHt D IH L A E1 E2 V. rewrite E1 in V. rewrite E2. destruct (etree_mono _ WF _ T V) as [V1 L1].
      destruct (der_mono _ WF _ _ _ _ _ D V1) as [V2 L2]. pose proof (up_mono _ _ _ V1 V2 L2 (IHt V)) as Mc. exact (postfix_u _ _ op _ V V1 V2 L1 L2 Mc (IH V1 (Forall_nil _)) A).
    - intros op c e c' T IHt D IH L A E1 E2 V. rewrite E1 in V. rewrite E2. destruct (etree_mono _ WF _ T V) as [V1 L1].
      destruct (der_mono _ WF _ _ _ _ _ D V1) as [V2 L2]. pose proof (up_mono _ _ _ V1 V2 L2 (IHt V)) as Mc. exact (postfix_u _ _ op _ V V1 V2 L1 L2 Mc (IH V1 (Forall_nil _)) A).
  Qed.
End DropsOk.
