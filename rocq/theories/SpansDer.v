(** The values of all derivations are laid out like the source. *)

From Coq Require Import String List Arith Bool Lia.
From Verif Require Import Base Peresil Token Schema Value Nt Grammar Points Table Static Typing SpanSpec Deriv DerivMono Spans SpansOk.
Import ListNotations.
Local Open Scope string_scope.
Local Open Scope list_scope.
Local Open Scope nat_scope.

Section SpansDer.
  Variable toks : list token.
  Hypothesis WF : wf_toks toks.
  Hypothesis NUM : forall i n, nth_error toks i = Some (TkNumber n) -> num_ord n.
  Notation valid := (valid toks).
  Notation sb := (sb toks).
  Notation eb := (eb toks).
  Notation teb := (teb toks).
  Notation der := (der toks).
  Notation ders := (ders toks).
  Notation items := (items toks).
  Notation between := (between toks).
  Notation etree := (etree toks).
  Notation TL := (TL toks).
  Notation Av := (Av toks).
  Notation envok := (envok toks).

  (** * Going on in time *)

  Lemma Av_agree i tm pt tm' pt' a v : (forall k, k <= 2 * i -> tm' k = tm k) -> (forall k, k <= i -> pt' k = pt k) ->
    wf_at i a -> Av tm pt a v -> Av tm' pt' a v.
  Proof.
    intros T P (W1 & W2 & W3 & W4) [[E1 E2 E3 E4] S O L]. constructor; auto.
    - constructor; rewrite ?T, ?P by auto; auto.
    - destruct (a_md a); [rewrite T by auto|]; auto.
  Qed.

  Lemma envok_agree i i' tm pt tm' pt' se e : (forall k, k <= 2 * i -> tm' k = tm k) -> (forall k, k <= i -> pt' k = pt k) ->
    i <= i' -> envok i tm pt se e -> envok i' tm' pt' se e.
  Proof.
    intros T P I E x t X. destruct (E _ _ X) as (v & V & O). exists v. split; [auto|]. destruct t as [j|a]; cbn [entry_ok] in *.
    - destruct O as [J ->]. split; [lia|]. now rewrite P.
    - destruct O as [W A]. split; [|eapply Av_agree; eauto]. destruct W as (W1 & W2 & W3 & W4). unfold wf_at.
      destruct (a_md a); lia.
  Qed.

  Definition tmx (i : nat) (tm : nat -> nat) (m u : nat) (k : nat) : nat :=
    if k <=? 2 * i then tm k else if k =? 2 * i + 1 then m else u.
  Definition ptx (i : nat) (pt : nat -> point) (q : point) (k : nat) : point := if k <=? i then pt k else q.

  Lemma tmx_old i tm m u k : k <= 2 * i -> tmx i tm m u k = tm k.
  Proof. intros L. unfold tmx. now rewrite (proj2 (Nat.leb_le _ _) L). Qed.
  Lemma tmx_mid i tm m u : tmx i tm m u (2 * i + 1) = m.
  Proof. unfold tmx. rewrite (proj2 (Nat.leb_gt _ _)) by lia. now rewrite Nat.eqb_refl. Qed.
  Lemma tmx_new i tm m u k : 2 * i + 1 < k -> tmx i tm m u k = u.
  Proof. intros L. unfold tmx. rewrite (proj2 (Nat.leb_gt _ _)) by lia. now rewrite (proj2 (Nat.eqb_neq _ _)) by lia. Qed.
  Lemma ptx_old i pt q k : k <= i -> ptx i pt q k = pt k.
  Proof. intros L. unfold ptx. now rewrite (proj2 (Nat.leb_le _ _) L). Qed.
  Lemma ptx_new i pt q k : i < k -> ptx i pt q k = q.
  Proof. intros L. unfold ptx. now rewrite (proj2 (Nat.leb_gt _ _) L). Qed.

  Lemma TL_step i mv tm pt y e q v m : TL i mv tm pt -> der y e (pt i) q v -> sb (pt i) <= m -> m <= sb q ->
    TL (i + 1) (moved i y mv) (tmx i tm m (sb q)) (ptx i pt q).
  Proof.
    intros T D M1 M2. assert (valid (pt i)) as Vi by (apply (tl_valid _ _ _ _ _ T); lia).
    destruct (der_mono _ WF _ _ _ _ _ D Vi) as [Vq L]. constructor.
    - intros k K. destruct (le_lt_dec k i); [rewrite ptx_old by auto; now apply (tl_valid _ _ _ _ _ T)|rewrite ptx_new by auto; auto].
    - intros j k J K. destruct (le_lt_dec k i).
      + rewrite !ptx_old by lia. apply (tl_pos _ _ _ _ _ T); lia.
      + rewrite (ptx_new _ _ _ k) by auto. destruct (le_lt_dec j i); [|rewrite ptx_new by auto; lia].
        rewrite ptx_old by auto. pose proof (tl_pos _ _ _ _ _ T j i ltac:(lia) ltac:(lia)). lia.
    - intros k K. destruct (le_lt_dec k i).
      + rewrite ptx_old, tmx_old by lia. apply (tl_time _ _ _ _ _ T). lia.
      + rewrite ptx_new, tmx_new by lia. reflexivity.
    - intros j k J K. pose proof (tl_time _ _ _ _ _ T i ltac:(lia)) as Ti.
      assert (forall j, j <= 2 * i -> tm j <= sb (pt i)) as Tj by (intros j' J'; rewrite <- Ti; apply (tl_mono _ _ _ _ _ T); lia).
      destruct (le_lt_dec k (2 * i)); [rewrite !tmx_old by lia; apply (tl_mono _ _ _ _ _ T); lia|].
      destruct (Nat.eq_dec k (2 * i + 1)) as [->|].
      + rewrite tmx_mid. destruct (le_lt_dec j (2 * i)); [rewrite tmx_old by lia; specialize (Tj j l0); lia|].
        replace j with (2 * i + 1) by lia. rewrite tmx_mid. lia.
      + rewrite (tmx_new _ _ _ _ k) by lia. destruct (le_lt_dec j (2 * i)); [rewrite tmx_old by lia; specialize (Tj j l0); lia|].
        destruct (Nat.eq_dec j (2 * i + 1)) as [->|]; [rewrite tmx_mid; lia|rewrite tmx_new by lia; lia].
    - intros k K. assert (In k (m_adv mv) \/ (k = i /\ tdadv y = true)) as [O|[-> A]].
      { unfold moved in K. cbn [m_adv] in K. destruct (tdadv y); [destruct K as [<-|K]; auto|auto]. }
      + destruct (tl_adv _ _ _ _ _ T _ O) as [O1 O2]. split; [lia|]. rewrite !ptx_old by lia. auto.
      + split; [lia|]. rewrite ptx_old, ptx_new by lia. eapply der_adv; eauto.
    - intros k K N. destruct (Nat.eq_dec k i) as [->|].
      + rewrite ptx_old, ptx_new by lia. unfold moved in N. cbn [m_loose] in N. destruct (tsadv y) eqn:S; [|exfalso; apply N; now left].
        eapply der_still; eauto.
      + rewrite !ptx_old by lia. apply (tl_loose _ _ _ _ _ T); [lia|]. intros C. apply N. unfold moved. cbn [m_loose].
        destruct (tsadv y); [auto|now right].
    - intros k h K. assert (In (k, h) (m_halves mv) \/ (k = i /\ exists err, y = GTok (MK h) err)) as [O|[-> [err ->]]].
      { unfold moved in K. cbn [m_halves] in K. destruct y; auto. destruct m0; auto. destruct (splits_off k0); [|auto].
        destruct K as [[= <- <-]|K]; eauto. }
      + destruct (tl_half _ _ _ _ _ T _ _ O) as [O1 O2]. split; [lia|]. rewrite !ptx_old by lia. auto.
      + split; [lia|]. rewrite ptx_old, ptx_new by lia. intros E. apply inv_tok in D as (_ & pm & D).
        apply tok_half in D as [[D _]|(k & n & [= <-] & _ & _ & D)]; [lia|exact D].
  Qed.

  Lemma bind_ok i tm pt p : forall a v se e e1, wf_at i a -> Av tm pt a v -> bind_pat p v e = Some e1 -> envok i tm pt se e ->
    envok i tm pt (bind_at p a se) e1.
  Proof.
    induction p as [x|p1 IH1 p2 IH2]; intros a v se e e1 W A B E; cbn [bind_pat bind_at] in *.
    - injection B as <-. intros y t Y. cbn [assoc] in *. destruct (String.eqb y x).
      + injection Y as <-. exists v. split; [reflexivity|]. cbn [entry_ok]. auto.
      + auto.
    - destruct v as [| | | | | | | | |va vb| |]; try discriminate. destruct (bind_pat p1 va e) as [e'|] eqn:B1; [|discriminate].
      destruct (v_ok _ _ _ _ _ A) as [L1 L2]. eapply IH2; [now apply second_wf| |exact B|].
      + eapply Av_second; [exact A|cbn [extents]; apply incl_appr, incl_refl|auto|]. cbn [splitv]. tauto.
      + eapply IH1; [now apply first_wf| |exact B1|exact E].
        eapply Av_first; [exact A|cbn [extents]; apply incl_appl, incl_refl|auto|]. cbn [splitv]. tauto.
  Qed.

  (** * Results *)

  Record Rv (i : nat) (tm : nat -> nat) (r : pa) (q : point) (v : val) : Prop := {
    rv_lo : r_lo r <= 2 * i;
    rv_emp : r_emp r = true -> extents v = [];
    rv_in : Forall (inside (tm (r_lo r)) (sb q)) (extents v);
    rv_end : ends (teb q) (extents v);
    rv_sf : r_sf r = true -> ends (eb q) (extents v);
    rv_sfx : r_sfx r = true -> ends (eb q) (extents (deinfix v));
    rv_slf : r_slf r = true -> selfv v;
    rv_po : exists m, splitv (r_po r) m v;
    rv_ok : laid_out v
  }.

  Lemma ends_deinfix u v : ends u (extents v) -> ends u (extents (deinfix v)).
  Proof.
    intros H. destruct v; auto. cbn [deinfix]. destruct (_ || _); [constructor|auto].
  Qed.

  Lemma clamp p m lo hi v : lo <= hi -> splitv p m v -> Forall (inside lo hi) (extents v) ->
    exists m', lo <= m' /\ m' <= hi /\ splitv p m' v.
  Proof.
    intros LH S I. exists (Nat.max lo (Nat.min m hi)). split; [lia|]. split; [lia|].
    assert (X : forall u, Forall (inside lo hi) (extents u) -> hi_le m u -> hi_le (Nat.max lo (Nat.min m hi)) u).
    { intros u Iu H. unfold hi_le in *. rewrite Forall_forall in *. intros e He. specialize (Iu _ He). specialize (H _ He). unfold inside in Iu. lia. }
    assert (Y : forall u, Forall (inside lo hi) (extents u) -> lo_ge m u -> lo_ge (Nat.max lo (Nat.min m hi)) u).
    { intros u Iu H. unfold lo_ge in *. rewrite Forall_forall in *. intros e He. specialize (Iu _ He). specialize (H _ He). unfold inside in Iu. lia. }
    destruct p; cbn [splitv] in *; auto.
    - destruct v; try contradiction. cbn [extents] in I. apply Forall_app in I as [I1 I2]. destruct S. auto.
    - destruct v; try contradiction; auto. destruct v; try contradiction. cbn [extents] in I. apply Forall_app in I as [I1 I2]. destruct S. auto.
    - destruct v as [| | | | | | | | | |k [|x [|y [|z [|]]]]|]; try contradiction. cbn [extents flat_map] in I.
      apply Forall_app in I as [I1 I2]. apply Forall_app in I2 as [I2 I3]. destruct S as (S1 & S2 & S3 & S4). auto.
  Qed.

  Lemma Rv_step i mv tm pt y e q v r : TL i mv tm pt -> der y e (pt i) q v -> Rv i tm r q v ->
    exists m, sb (pt i) <= m /\ m <= sb q /\ wf_at (i + 1) (step_at i r) /\ Av (tmx i tm m (sb q)) (ptx i pt q) (step_at i r) v.
  Proof.
    intros T D [R1 R2 R3 R4 R5 R6 R7 [m0 R8] R9].
    assert (valid (pt i)) as Vi by (apply (tl_valid _ _ _ _ _ T); lia).
    destruct (der_mono _ WF _ _ _ _ _ D Vi) as [Vq L]. pose proof (sb_mono _ WF _ _ Vi Vq L) as LS.
    assert (exists m, sb (pt i) <= m /\ m <= sb q /\ (r_lo r = 2 * i -> splitv (r_po r) m v)) as (m & M1 & M2 & M3).
    { destruct (Nat.eq_dec (r_lo r) (2 * i)) as [E|N].
      - rewrite E, (tl_time _ _ _ _ _ T) in R3 by lia. destruct (clamp _ _ _ _ _ LS R8 R3) as (m & A & B & C). eauto.
      - exists (sb q). split; [lia|]. split; [lia|]. intros E. lia. }
    exists m. split; [auto|]. split; [auto|]. unfold step_at. split.
    - unfold wf_at. cbn [a_lo a_hi a_ub a_md]. destruct ((r_lo r =? 2 * i) && negb (po_eqb (r_po r) PoNo)); lia.
    - constructor; cbn [a_slf a_md a_po]; auto.
      + constructor; cbn [a_emp a_lo a_hi a_ub a_sf]; auto.
        * rewrite tmx_old by lia. rewrite tmx_new by lia. exact R3.
        * rewrite ptx_new by lia. auto.
        * rewrite ptx_new by lia. auto.
      + destruct (Nat.eqb_spec (r_lo r) (2 * i)) as [E|N]; cbn [andb]; [|now exists 0].
        destruct (po_eqb (r_po r) PoNo) eqn:P; cbn [negb]; [now exists 0|]. rewrite tmx_mid. auto.
  Qed.

  (** Weaker descriptions. *)
  Lemma Rv_meet_l i mv tm pt a b q v : TL i mv tm pt -> Rv i tm a q v -> Rv i tm (meet a b) q v.
  Proof.
    intros T [R1 R2 R3 R4 R5 R6 R7 R8 R9]. constructor; cbn [meet r_lo r_emp r_sf r_sfx r_slf r_po]; auto.
    - lia.
    - intros H. apply andb_true_iff in H as []. auto.
    - eapply Forall_impl; [|exact R3]. unfold inside. intros e He.
      pose proof (tl_mono _ _ _ _ _ T (Nat.min (r_lo a) (r_lo b)) (r_lo a) ltac:(lia) ltac:(lia)). lia.
    - intros H. apply andb_true_iff in H as []. auto.
    - intros H. apply andb_true_iff in H as []. auto.
    - intros H. apply andb_true_iff in H as []. auto.
    - destruct (po_eqb _ _); [auto|now exists 0].
  Qed.

  Lemma Rv_meet_r i mv tm pt a b q v : TL i mv tm pt -> Rv i tm b q v -> Rv i tm (meet a b) q v.
  Proof.
    intros T [R1 R2 R3 R4 R5 R6 R7 R8 R9]. constructor; cbn [meet r_lo r_emp r_sf r_sfx r_slf r_po]; auto.
    - lia.
    - intros H. apply andb_true_iff in H as []. auto.
    - eapply Forall_impl; [|exact R3]. unfold inside. intros e He.
      pose proof (tl_mono _ _ _ _ _ T (Nat.min (r_lo a) (r_lo b)) (r_lo b) ltac:(lia) ltac:(lia)). lia.
    - intros H. apply andb_true_iff in H as []. auto.
    - intros H. apply andb_true_iff in H as []. auto.
    - intros H. apply andb_true_iff in H as []. auto.
    - destruct (po_eqb (r_po a) (r_po b)) eqn:P; [|now exists 0]. assert (r_po a = r_po b) as -> by (destruct (r_po a), (r_po b); try discriminate; auto). auto.
  Qed.

  Lemma TL_const p : valid p -> TL 0 still (fun _ => sb p) (fun _ => p).
  Proof.
    intros V. constructor; auto; try (intros; lia).
    - intros k [].
    - intros k h [].
  Qed.

  Lemma envok_nil i tm pt e : envok i tm pt [] e.
  Proof. intros x t X. discriminate. Qed.

  Lemma meets_ok i mv tm pt (f : g -> option pa) gs x r q v : TL i mv tm pt -> meets (map f gs) = Some r -> In x gs ->
    (forall rx, f x = Some rx -> Rv i tm rx q v) -> Rv i tm r q v.
  Proof.
    intros T. revert r. induction gs as [|y gs IH]; intros r M I H; [destruct I|]. destruct gs as [|z gs].
    - cbn [map meets] in M. destruct I as [->|[]]. auto.
    - change (obind (f y) (fun a => omap (meet a) (meets (map f (z :: gs)))) = Some r) in M.
      destruct (f y) as [a|] eqn:Y; [|discriminate]. cbn [obind] in M. destruct (meets (map f (z :: gs))) as [b|] eqn:B; [|discriminate].
      injection M as <-. destruct I as [->|I].
      + eapply Rv_meet_l; eauto.
      + eapply Rv_meet_r; eauto.
  Qed.

  Lemma some_inj {X} (a b : X) : Some a = Some b -> a = b.
  Proof. congruence. Qed.

  (** * Nodes of expressions *)

  Definition car_ok (s e : point) (v : val) : Prop :=
    Forall (inside (sb s) (sb e)) (extents v) /\ ends (eb e) (extents v) /\ laid_out v.

  Lemma car_wide s s' e e' v : valid s -> valid s' -> valid e -> valid e' -> pos s' <= pos s -> pos e <= pos e' -> car_ok s e v -> car_ok s' e' v.
  Proof.
    intros V1 V2 V3 V4 L1 L2 (A & B & C). pose proof (sb_mono _ WF _ _ V2 V1 L1). pose proof (sb_mono _ WF _ _ V3 V4 L2). split; [|split; [|auto]].
    - eapply Forall_impl; [|exact A]. unfold inside. intros x. lia.
    - eapply ends_mono; [|exact B]. now apply eb_mono.
  Qed.

  Lemma car_empty s e v : extents v = [] -> laid_out v -> car_ok s e v.
  Proof. intros E L. unfold car_ok. rewrite E. repeat constructor. auto. Qed.

  Lemma car_before s m e e' v w : valid m -> valid e' -> pos m <= pos e' -> car_ok s m v -> car_ok e' e w -> before v w.
  Proof.
    intros V1 V2 L (A & _) (B & _). pose proof (sb_mono _ WF _ _ V1 V2 L). apply before_sep with (m := sb m).
    - eapply Forall_impl; [|exact A]. unfold inside. intros x. lia.
    - eapply Forall_impl; [|exact B]. unfold inside. intros x. lia.
  Qed.

  Definition first_extent (k : string) : bool :=
    match struct_fields k with Some (f :: _) => String.eqb (field_name f) "extent" | _ => false end.

  Lemma node_plain k x fs : first_extent k = true -> ForallOrdPairs before fs -> node_ord k (VExt x :: fs).
  Proof.
    unfold first_extent, node_ord. destruct (struct_fields k) as [[|f fields]|]; try discriminate. intros F O. apply String.eqb_eq in F.
    cbn [map combine]. constructor.
    - cbn [fst snd]. rewrite F. apply Forall_forall. intros y _. cbn. discriminate.
    - clear F. revert fields. induction O as [|v fs F O IH]; intros [|f' fields]; cbn [map combine]; try constructor; auto.
      clear -F. revert fields. induction F as [|w fs W F IH]; intros [|f2 fields]; cbn [map combine]; try constructor; auto.
  Qed.

  Lemma mk_node k x fs s e : valid s -> valid e -> pos s <= pos e -> off s < off e -> ex toks s e = BOk x ->
    Forall (car_ok s e) fs -> node_ord k (VExt x :: fs) ->
    car_ok s e (VNode k (VExt x :: fs)) /\ selfv (VNode k (VExt x :: fs)).
  Proof.
    intros Vs Ve L O X F N. destruct (ex_ok _ WF _ _ Vs Ve L) as (x' & X' & E1 & E2 & E3). rewrite X in X'. injection X' as <-.
    assert (Forall (inside (sb s) (sb e)) (flat_map extents fs) /\ ends (eb e) (flat_map extents fs) /\ Forall laid_out fs) as (F1 & F2 & F3).
    { clear -F. induction F as [|v fs (A & B & C) F (IH1 & IH2 & IH3)]; cbn [flat_map]; [repeat constructor|].
      split; [apply Forall_app; auto|]. split; [apply Forall_app; auto|]. constructor; auto. }
    assert (W : within x (VList (VExt x :: fs))).
    { unfold within. cbn [extents flat_map app]. constructor; [intros _; lia|]. exact (ex_holds _ WF _ _ _ _ Vs Ve L X F1 F2). }
    split; [split; [|split]|].
    - cbn [extents flat_map app]. constructor; [unfold inside; lia|auto].
    - cbn [extents flat_map app]. constructor; [|auto]. apply (ex_eb _ WF _ _ _ Vs Ve L X). now right.
    - apply laid_node. split; [constructor; [exact I|auto]|]. split; [auto|]. intros _ y G. apply get_extent in G. injection G as <-. exact W.
    - intros y [= <-]. exact W.
  Qed.

  Lemma expr_ok v k x fs s e : valid s -> valid e -> pos s <= pos e -> off s < off e -> ex toks s e = BOk x ->
    first_extent k = true -> Forall (car_ok s e) fs -> ForallOrdPairs before fs ->
    car_ok s e (into_attributed x (expr_node v k (VExt x :: fs))) /\ selfv (into_attributed x (expr_node v k (VExt x :: fs))).
  Proof.
    intros Vs Ve L O X F A B. destruct (mk_node k x fs s e Vs Ve L O X A (node_plain _ _ _ F B)) as [C S].
    unfold into_attributed. apply mk_node; auto.
    - repeat apply Forall_cons; auto; apply car_empty; try reflexivity; apply laid_nil.
    - apply node_plain; [reflexivity|]. pairs; try (apply before_nil_r; reflexivity); apply before_nil_l; reflexivity.
  Qed.

  (** With attributes in front of a prefix operator. *)
  Lemma prefix_ok v k x attrs fs s e : valid s -> valid e -> pos s <= pos e -> off s < off e -> ex toks s e = BOk x ->
    first_extent k = true -> prefix_operation (expr_node v k (VExt x :: fs)) = true ->
    car_ok s e attrs -> Forall (car_ok s e) fs -> ForallOrdPairs before fs ->
    car_ok s e (VNode "Attributed<Expression>" [VExt x; attrs; expr_node v k (VExt x :: fs); VList []]) /\
    selfv (VNode "Attributed<Expression>" [VExt x; attrs; expr_node v k (VExt x :: fs); VList []]).
  Proof.
    intros Vs Ve L O X F P At A B. destruct (mk_node k x fs s e Vs Ve L O X A (node_plain _ _ _ F B)) as [C S].
    apply mk_node; auto.
    - repeat apply Forall_cons; auto. apply car_empty; [reflexivity|apply laid_nil].
    - unfold node_ord. cbn -[before prefix_operation expr_node]. pairs; cbn [fst snd]; try discriminate; intros _.
      + right. auto.
      + left. apply before_nil_r. reflexivity.
      + left. apply before_nil_r. reflexivity.
  Qed.

  (** * Operators *)

  Lemma infix_range p q en en' w : der (GNT N_expression_infix_or_postfix) [] p q (VVar en "Infix" (VVar en' "RangeInclusive" w)) -> valid p ->
    off q = off p + 1 /\ sub q = None.
  Proof.
    intros D V. apply inv_nt in D. cbn [table] in D. apply inv_alt in D as (x & I & D). destruct I as [<-|[<-|[]]].
    2: apply inv_wrap in D as (w' & D1 & _); discriminate.
    apply inv_wrap in D as (w' & [= _ <-] & D). apply inv_nt in D. cbn [table] in D. apply inv_alt in D as (x & I & D).
    cbn [In] in I. repeat destruct I as [<-|I]; try contradiction; apply inv_wrap in D as (w2 & D1 & D); try discriminate.
    now apply inv_range in D.
  Qed.

  Definition etree_ok (c : car val) : Prop :=
    valid (c_spt c) -> car_ok (c_spt c) (c_ept c) (c_val c) /\ selfv (c_val c).

  Definition der_ok (x : g) (e : env) (p q : point) (v : val) : Prop :=
    forall se i mv tm pt r, TL i mv tm pt -> envok i tm pt se e -> p = pt i -> tchk se i mv x = Some r -> Rv i tm r q v.

  Definition ders_ok (steps : list (pat * g)) (e : env) (p : point) (e' : env) (q : point) : Prop :=
    forall se i mv tm pt se' i' mv', TL i mv tm pt -> envok i tm pt se e -> p = pt i ->
      walk tchk steps se i mv = Some (se', i', mv') ->
      exists tm' pt', TL i' mv' tm' pt' /\ envok i' tm' pt' se' e' /\ q = pt' i' /\ i <= i' /\
        (forall k, k <= 2 * i -> tm' k = tm k) /\ (forall k, k <= i -> pt' k = pt k).

  Definition items_ok (f : g) (p q : point) (vs : list val) : Prop :=
    forall r, valid p -> tchk [] 0 still f = Some r ->
      Forall (inside (sb p) (sb q)) (flat_map extents vs) /\ ends (teb q) (flat_map extents vs) /\
      (r_sf r = true -> ends (eb q) (flat_map extents vs)) /\ laid_out (VList vs).

  (** What a parser called without an environment returns. *)
  Lemma der_top x e p q v r : der_ok x e p q v -> valid p -> tchk [] 0 still x = Some r -> Rv 0 (fun _ => sb p) r q v.
  Proof.
    intros H V C. exact (H [] 0 still (fun _ => sb p) (fun _ => p) r (TL_const _ V) (envok_nil _ _ _ _) eq_refl C).
  Qed.

  Lemma nt_rv n e p q v : der_ok (table n) e p q v -> valid p ->
    let '(sf, sfx, slf, po) := nattr n in
    Rv 0 (fun _ => sb p) (mkPa false 0 sf sfx slf po) q v.
  Proof.
    intros H V. pose proof spans_checked as SC. rewrite forallb_forall in SC. specialize (SC n (all_nts_complete n)).
    unfold span_ok in SC. destruct (tchk [] 0 still (table n)) as [r|] eqn:C; [|discriminate].
    pose proof (der_top _ _ _ _ _ _ H V C) as [R1 R2 R3 R4 R5 R6 R7 R8 R9]. destruct (nattr n) as [[[sf sfx] slf] po].
    apply andb_true_iff in SC as [SC S4]. apply andb_true_iff in SC as [SC S3]. apply andb_true_iff in SC as [S1 S2].
    constructor; cbn [r_lo r_emp r_sf r_sfx r_slf r_po]; auto; try discriminate.
    - intros ->. cbn [implb] in S1. auto.
    - intros ->. cbn [implb] in S2. auto.
    - intros ->. cbn [implb] in S3. auto.
    - apply orb_true_iff in S4 as [S4|S4]; [destruct po; try discriminate; now exists 0|].
      assert (po = r_po r) as -> by (destruct po, (r_po r); try discriminate; auto). auto.
  Qed.

  Lemma list_laid a l : laid_out (VList [a]) -> laid_out (VList l) -> Forall (before a) l -> laid_out (VList (a :: l)).
  Proof.
    intros A L B. apply laid_list in A as [A _]. apply Forall_cons_iff in A as [A _]. apply laid_list in L as [L1 L2].
    apply laid_list. split; constructor; auto.
  Qed.

  Lemma laid_app l l' : laid_out (VList l) -> laid_out (VList l') -> before (VList l) (VList l') -> laid_out (VList (l ++ l')).
  Proof.
    intros A B C. apply laid_list in A as [A1 A2]. apply laid_list in B as [B1 B2]. apply laid_list. split; [apply Forall_app; auto|].
    clear A1 B1. induction A2 as [|x l F A2 IH]; [auto|]. cbn [app]. constructor.
    - apply Forall_app. split; [auto|]. apply Forall_forall. intros y Hy z z' Hz Hz'. apply C; cbn [extents].
      + apply in_or_app. now left.
      + apply in_flat_map. eauto.
    - apply IH. intros z z' Hz. apply C. cbn [extents flat_map] in *. apply in_or_app. now right.
  Qed.

  Lemma tailed_rv i tm (p q : point) f rx vs n b : items_ok f p q vs -> valid p -> tchk [] 0 still f = Some rx -> tm (2 * i) = sb p ->
    Rv i tm (mkPa false (2 * i) (r_sf rx) (r_sf rx) false PoPair) q (vtailed vs n b).
  Proof.
    intros IH V X T. destruct (IH _ V X) as (I1 & I2 & I3 & I4).
    assert (XX : extents (vtailed vs n b) = flat_map extents vs) by (cbn [vtailed extents]; apply app_nil_r).
    constructor; cbn [r_lo r_emp r_sf r_sfx r_slf r_po]; try discriminate; try rewrite XX; auto.
    - rewrite T. auto.
    - cbn [deinfix vtailed]. intros S. rewrite <- XX in I3. auto.
    - exists (sb q). cbn [splitv vtailed]. split; [|constructor]. unfold hi_le. cbn [extents].
      eapply Forall_impl; [|exact I1]. unfold inside; intros y Hy; lia.
    - cbn [vtailed]. split; [auto|split; exact I].
  Qed.

  Lemma ext_rv i tm (p q : point) sf x : valid p -> valid q -> pos p <= pos q -> ex toks p q = BOk x -> tm (2 * i) = sb p ->
    sf = false \/ (fst x < snd x -> snd x <= eb q) -> Rv i tm (mkPa false (2 * i) sf sf true PoNo) q (VExt x).
  Proof.
    intros Vp Vq L X T S. destruct (ex_ok _ WF _ _ Vp Vq L) as (x' & X' & E1 & E2 & E3). rewrite X in X'. injection X' as <-.
    assert (sf = true -> ends (eb q) [x]) as SF by (intros ->; destruct S as [S|S]; [discriminate|]; constructor; [auto|constructor]).
    constructor; cbn [r_lo r_emp r_sf r_sfx r_slf r_po extents deinfix]; auto; try discriminate.
    - rewrite T. constructor; [unfold inside; lia|constructor].
    - constructor; [|constructor]. apply (ex_teb _ WF _ _ _ Vp Vq L X).
    - intros _ y [= <-]. constructor; [intros _; lia|constructor].
    - now exists 0.
    - exact I.
  Qed.

  (** What an operator reads before its operand. *)
  Definition half (s m : point) (v : val) : Prop :=
    Forall (inside (sb s) (sb m)) (extents v) /\ ends (teb m) (extents v) /\ laid_out v.

  Lemma half_car s m e v : valid m -> valid e -> pos m <= pos e -> off m < off e \/ (m = e /\ sub e = None) -> half s m v -> car_ok s e v.
  Proof.
    intros Vm Ve L O (A & B & C). pose proof (sb_mono _ WF _ _ Vm Ve L). split; [|split; [|auto]].
    - eapply Forall_impl; [|exact A]. unfold inside. intros x. lia.
    - eapply ends_mono; [|exact B]. destruct O as [O|[-> N]]; [now apply teb_eb|]. unfold teb, eb. rewrite N. lia.
  Qed.

  Lemma half_before s m e v w : half s m v -> car_ok m e w -> before v w.
  Proof.
    intros (A & _) (B & _). apply before_sep with (m := sb m).
    - eapply Forall_impl; [|exact A]. unfold inside. intros x. lia.
    - eapply Forall_impl; [|exact B]. unfold inside. intros x. lia.
  Qed.

  Lemma half_op s m k x l w ws : half s m (VNode k [VExt x; l; w; ws]) -> half s m l /\ half s m w.
  Proof.
    intros (A & B & C). apply laid_node in C as (C & _ & _). cbn [extents flat_map app] in A, B.
    apply Forall_cons_iff in A as [_ A]. apply Forall_app in A as [A1 A]. apply Forall_app in A as [A2 _].
    apply Forall_cons_iff in B as [_ B]. apply Forall_app in B as [B1 B]. apply Forall_app in B as [B2 _].
    apply Forall_cons_iff in C as [_ C]. apply Forall_cons_iff in C as [C1 C]. apply Forall_cons_iff in C as [C2 _].
    repeat split; auto.
  Qed.

  Lemma half_var s m en k w : half s m (VVar en k w) -> half s m w.
  Proof. intros (A & B & C). repeat split; auto. Qed.

  Lemma nt_half n p q v sf sfx slf po : nattr n = (sf, sfx, slf, po) -> der_ok (GNT n) [] p q v -> valid p ->
    half p q v /\ (sf = true -> car_ok p q v) /\ (sfx = true -> ends (eb q) (extents (deinfix v))).
  Proof.
    intros N H V. assert (tchk [] 0 still (GNT n) = Some (mkPa false 0 sf sfx slf po)) as C by (unfold tchk; cbn [chk]; now rewrite N).
    destruct (der_top _ _ _ _ _ _ H V C) as [R1 R2 R3 R4 R5 R6 R7 R8 R9]. cbn [r_lo r_emp r_sf r_sfx r_slf r_po] in *.
    unfold half, car_ok. auto 10.
  Qed.

  Lemma apply_prefix_val c res s e x attrs f c' res' : apply_prefix toks (c :: res) s e x attrs f = AOk (c' :: res') ->
    exists y, ex toks s (c_ept c) = BOk y /\
      c_val c' = VNode "Attributed<Expression>" [VExt (fst x, snd y); attrs; f y (c_val c); VList []].
  Proof.
    unfold apply_prefix. cbn [pop_expression abind]. destruct (pt_lt (c_ept c) s); [discriminate|].
    destruct (ex toks s (c_ept c)) as [y|]; cbn [a_of_b abind]; [|discriminate]. intros [= <- _]. eauto.
  Qed.

  Lemma apply_infix_val r l res s e f c' res' : apply_infix toks (r :: l :: res) s e f = AOk (c' :: res') ->
    exists x, ex toks (c_spt l) (c_ept r) = BOk x /\ c_val c' = into_attributed x (f x (c_val l) (c_val r)).
  Proof.
    unfold apply_infix. cbn [pop_expression abind].
    destruct (ex toks (c_spt l) (c_ept r)) as [y|]; cbn [a_of_b abind]; [|discriminate]. intros [= <- _]. eauto.
  Qed.

  Lemma apply_postfix_val c res s e f c' res' : apply_postfix toks (c :: res) s e f = AOk (c' :: res') ->
    exists x, ex toks (c_spt c) e = BOk x /\ c_val c' = into_attributed x (f x (c_val c)).
  Proof.
    unfold apply_postfix. cbn [pop_expression abind].
    destruct (ex toks (c_spt c) e) as [y|]; cbn [a_of_b abind]; [|discriminate]. intros [= <- _]. eauto.
  Qed.

  Lemma car_nothing s e v : v = VNone \/ v = VList [] \/ (exists en t, v = VVar en t VUnit) -> car_ok s e v.
  Proof. intros [->|[->|(en & t & ->)]]; apply car_empty; try reflexivity; try exact I. apply laid_nil. Qed.

  Lemma car_some s e v : car_ok s e v -> car_ok s e (VSome v).
  Proof. auto. Qed.

  Lemma car_sub s e v : car_ok s e (VSome v) -> car_ok s e v.
  Proof. auto. Qed.

  Lemma postfix_ok c e op c' : valid (c_spt c) -> valid (c_ept c) -> pos (c_spt c) <= pos (c_ept c) -> off (c_spt c) < off (c_ept c) ->
    valid e /\ pos (c_ept c) <= pos e ->
    car_ok (c_spt c) (c_ept c) (c_val c) -> car_ok (c_ept c) e op ->
    apply_one toks [c] (OpPostfix op) (c_ept c) e = AOk [c'] -> car_ok (c_spt c) e (c_val c') /\ selfv (c_val c').
  Proof.
    intros V V1 L1 O1 [V2 L2] Cc Co A. pose proof (pos_off _ _ _ V1 V2 L2) as O2.
    destruct op as [| | | | | | | | | | |en' k w]; cbn [apply_one] in A; try discriminate.
    change (car_ok (c_ept c) e w) in Co.
    pose proof (car_before _ _ _ _ _ _ V1 V1 (le_n _) Cc Co) as B1. assert (pos (c_spt c) <= pos e) as L4 by lia.
    pose proof (car_wide _ (c_spt c) _ e _ V V V1 V2 ltac:(lia) ltac:(lia) Cc) as Cc'.
    pose proof (car_wide _ (c_spt c) _ e _ V1 V V2 V2 ltac:(lia) ltac:(lia) Co) as Co'.
    assert (forall v kk f fs, apply_postfix toks [c] (c_ept c) e f = AOk [c'] ->
              (forall y, f y (c_val c) = expr_node v kk (VExt y :: fs)) -> first_extent kk = true ->
              Forall (car_ok (c_spt c) e) fs -> ForallOrdPairs before fs ->
              car_ok (c_spt c) e (c_val c') /\ selfv (c_val c')) as K.
    { intros v0 kk f fs P F K1 K3 K4. apply apply_postfix_val in P as (y & Y & ->). rewrite F. apply expr_ok; auto. lia. }
    assert (forall v, before v (VList [])) as Bn by (intros; now apply before_nil_r).
    assert (car_ok (c_spt c) e (VList [])) as C0 by (apply car_nothing; auto).
    repeat match type of A with (if ?b then _ else _) = _ => destruct b end;
      (eapply (K _ _ _ _ A); [intros; reflexivity|reflexivity| |]; [repeat apply Forall_cons; auto|pairs; auto]).
  Qed.

  Theorem spans_all :
    (forall x e p q v, der x e p q v -> der_ok x e p q v) /\
    (forall steps e p e' q, ders steps e p e' q -> ders_ok steps e p e' q) /\
    (forall so f e p q vs, items so f e p q vs -> items_ok f p q vs) /\
    (forall so e p q, between so e p q -> True) /\
    (forall c, etree c -> etree_ok c).
  Proof.
    apply (der_all toks der_ok ders_ok (fun so f e p q vs => items_ok f p q vs) (fun so e p q => True) etree_ok); auto.
    - (* GTok *) intros m err e p q v pm NE TK se i mv tm pt r T E -> C. unfold tchk in C. cbn [chk] in C. apply some_inj in C; subst r.
      assert (valid (pt i)) as Vi by (apply (tl_valid _ _ _ _ _ T); lia).
      destruct (tok_ends _ WF NUM _ _ _ _ _ _ Vi NE TK) as (T1 & T2 & T3 & T4).
      pose proof (tok_ok _ WF m err pm (pt i) Vi NE) as O. rewrite TK in O. destruct O as [_ O].
      constructor; cbn [r_lo r_emp r_sf r_sfx r_slf r_po]; auto; try discriminate.
      + rewrite (tl_time _ _ _ _ _ T) by lia. exact (tks_in _ _ _ _ _ O).
      + intros W. apply ends_deinfix. auto.
      + destruct m as [k|]; [|discriminate]. intros _. destruct (T4 _ eq_refl) as [x ->]. intros y [= <-]. constructor; [intros _; lia|constructor].
      + now exists 0.
    - (* GNT *) intros n e p q v D IH se i mv tm pt r T E -> C.
      assert (valid (pt i)) as Vi by (apply (tl_valid _ _ _ _ _ T); lia).
      pose proof (nt_rv _ _ _ _ _ IH Vi) as R. unfold tchk in C. cbn [chk] in C. destruct (nattr n) as [[[sf sfx] slf] po].
      apply some_inj in C; subst r. destruct R as [R1 R2 R3 R4 R5 R6 R7 R8 R9]. constructor; cbn [r_lo r_emp r_sf r_sfx r_slf r_po] in *; auto.
      rewrite (tl_time _ _ _ _ _ T) by lia. auto.
    - (* GPoint *) intros e p se i mv tm pt r T E -> C. discriminate.
    - (* GSeq *) intros steps b e e' p q v DS IHs B se i mv tm pt r T E -> C. unfold tchk in C. cbn [chk] in C. fold tchk in C.
      destruct (walk tchk steps se i mv) as [[[se' i'] mv']|] eqn:W; cbn [obind] in C; [|discriminate].
      destruct (bat se' i' mv' b) as [a|] eqn:A; cbn [omap] in C; [|discriminate]. apply some_inj in C; subst r.
      destruct (IHs _ _ _ _ _ _ _ _ T E eq_refl W) as (tm' & pt' & T' & E' & -> & Li & Tm & Tp).
      destruct (bat_ok _ WF _ _ _ _ T' _ _ E' _ _ _ A B) as [Wa Av]. destruct Av as [[X1 X2 X3 X4] V2 V3 V4]. destruct Wa as (W1 & W2 & W3 & W4).
      assert (SF : safe_at mv' i' a = true -> ends (eb (pt' i')) (extents v)).
      { intros SF. eapply (safe_at_ok _ WF _ _ _ _ T'); [|exact SF| |]; [constructor; eauto| |]; lia. }
      constructor; unfold finish; cbn [r_lo r_emp r_sf r_sfx r_slf r_po]; auto.
      + lia.
      + rewrite <- (Tm (Nat.min (a_lo a) (2 * i))) by lia. eapply Forall_impl; [|exact X2]. unfold inside. intros x Hx.
        pose proof (tl_mono _ _ _ _ _ T' (Nat.min (a_lo a) (2 * i)) (a_lo a) ltac:(lia) ltac:(lia)).
        pose proof (tl_mono _ _ _ _ _ T' (a_hi a) (2 * i') ltac:(lia) ltac:(lia)). rewrite (tl_time _ _ _ _ _ T') in * by lia. lia.
      + eapply ends_mono; [|exact X3]. eapply (teb_time _ WF _ _ _ _ T'); lia.
      + intros H. apply orb_true_iff in H as [H|H]; [|apply ends_deinfix; auto].
        destruct b; try discriminate. cbn [is_infix_build] in H. cbn [beval] in B. destruct (beval toks (pt' i') e' b); cbn [bbind] in B; [|discriminate].
        injection B as <-. cbn [deinfix]. rewrite H. constructor.
      + destruct (a_md a); eauto.
    - (* GAlt *) intros gs x e p q v I D IH se i mv tm pt r T E -> C. unfold tchk in C. cbn [chk] in C. fold tchk in C.
      eapply meets_ok; eauto.
    - (* GOpt, some *) intros x e p q v D IH se i mv tm pt r T E -> C. unfold tchk in C. cbn [chk] in C. fold tchk in C.
      destruct (tchk se i mv x) as [rx|] eqn:X; [|discriminate]. apply some_inj in C; subst r.
      destruct (IH _ _ _ _ _ _ T E eq_refl X) as [R1 R2 R3 R4 R5 R6 R7 [m R8] R9].
      constructor; cbn [r_lo r_emp r_sf r_sfx r_slf r_po extents deinfix]; auto; try discriminate; [lia| |].
      { eapply Forall_impl; [|exact R3]. unfold inside. intros y Hy.
        pose proof (tl_mono _ _ _ _ _ T (Nat.min (r_lo rx) (2 * i)) (r_lo rx) ltac:(lia) ltac:(lia)). lia. }
      exists m. destruct (r_po rx); cbn [opt_po splitv] in *; auto.
    - (* GOpt, none *) intros x e p se i mv tm pt r T E -> C. unfold tchk in C. cbn [chk] in C. fold tchk in C.
      destruct (tchk se i mv x) as [rx|] eqn:X; [|discriminate]. apply some_inj in C; subst r.
      constructor; cbn [r_lo r_emp r_sf r_sfx r_slf r_po extents deinfix]; try (intros; constructor; fail); try discriminate.
      + lia.
      + exists 0. destruct (r_po rx); cbn [opt_po splitv] in *; auto.
    - (* GMany *) intros x e p q l D IH se i mv tm pt r T E -> C. unfold tchk in C. cbn [chk] in C. fold tchk in C.
      destruct (tchk [] 0 still x) as [rx|] eqn:X; [|discriminate]. apply some_inj in C; subst r.
      assert (valid (pt i)) as Vi by (apply (tl_valid _ _ _ _ _ T); lia). destruct (IH _ Vi X) as (I1 & I2 & I3 & I4).
      constructor; cbn [r_lo r_emp r_sf r_sfx r_slf r_po extents deinfix]; auto; try discriminate.
      + rewrite (tl_time _ _ _ _ _ T) by lia. auto.
      + now exists 0.
    - (* GTailed *) intros app sep f e p q l vs n b B D IH Ch se i mv tm pt r T E -> C. unfold tchk in C. cbn [chk] in C. fold tchk in C.
      destruct (tchk [] 0 still f) as [rx|] eqn:X; cbn [obind] in C; [|discriminate].
      destruct (bat se i mv app) as [a|] eqn:A; cbn [obind] in C; [|discriminate]. apply some_inj in C; subst r.
      assert (valid (pt i)) as Vi by (apply (tl_valid _ _ _ _ _ T); lia). destruct (IH _ Vi X) as (I1 & I2 & I3 & I4).
      destruct (items_mono _ WF _ _ _ _ _ _ D Vi) as [Vq L].
      pose proof (sb_mono _ WF _ _ Vi Vq L) as LS. pose proof (eb_mono _ WF _ _ Vi Vq L) as LE. pose proof (teb_mono _ WF _ _ Vi Vq L) as LT.
      destruct (bat_ok _ WF _ _ _ _ T _ _ E _ _ _ A B) as [(W1 & W2 & W3 & W4) Aa]. pose proof (v_ok _ _ _ _ _ Aa) as Lo.
      pose proof (v_ex _ _ _ _ _ Aa) as Xa. cbn [extents] in Xa. pose proof Xa as [X1 X2 X3 X4].
      pose proof (tl_mono _ _ _ _ _ T (a_hi a) (2 * i) ltac:(lia) ltac:(lia)) as Hi. rewrite (tl_time _ _ _ _ _ T) in Hi by lia.
      assert (SF : r_sf rx && (a_emp a || safe_at mv i a) = true -> ends (eb q) (flat_map extents (l ++ vs))).
      { intros S. apply andb_true_iff in S as [S1 S2]. rewrite flat_map_app. apply Forall_app. split; [|exact (I3 S1)].
        apply orb_true_iff in S2 as [S2|S2]; [rewrite (X1 S2); constructor|]. eapply ends_mono; [exact LE|].
        apply (safe_at_ok _ WF _ _ _ _ T _ _ _ Xa S2); lia. }
      assert (XX : extents (vtailed (l ++ vs) n b) = flat_map extents (l ++ vs)) by (cbn [vtailed extents]; apply app_nil_r).
      constructor; cbn [r_lo r_emp r_sf r_sfx r_slf r_po]; try discriminate; try rewrite XX.
      + destruct (a_emp a); lia.
      + rewrite flat_map_app. apply Forall_app. destruct (a_emp a) eqn:EM.
        * rewrite (X1 eq_refl). split; [constructor|]. rewrite (tl_time _ _ _ _ _ T) by lia. auto.
        * pose proof (tl_mono _ _ _ _ _ T (Nat.min (2 * i) (a_lo a)) (a_lo a) ltac:(lia) ltac:(lia)).
          pose proof (tl_mono _ _ _ _ _ T (Nat.min (2 * i) (a_lo a)) (2 * i) ltac:(lia) ltac:(lia)) as H0. rewrite (tl_time _ _ _ _ _ T) in H0 by lia.
          split; [eapply Forall_impl; [|exact X2]|eapply Forall_impl; [|exact I1]]; unfold inside; intros y Hy; lia.
      + rewrite flat_map_app. apply Forall_app. split; [|exact I2]. eapply ends_mono; [|exact X3].
        pose proof (teb_time _ WF _ _ _ _ T (a_ub a) i ltac:(lia) ltac:(lia)). lia.
      + auto.
      + cbn [deinfix vtailed]. intros S. rewrite <- XX in SF. auto.
      + exists (sb q). cbn [splitv vtailed]. split; [|constructor]. unfold hi_le. cbn [extents]. rewrite flat_map_app. apply Forall_app.
        split; [eapply Forall_impl; [|exact X2]|eapply Forall_impl; [|exact I1]]; unfold inside; intros y Hy; lia.
      + cbn [vtailed]. split; [|split; exact I]. apply laid_app; auto. apply before_sep with (m := sb (pt i)); cbn [extents].
        * eapply Forall_impl; [|exact X2]. unfold inside; intros y Hy; lia.
        * eapply Forall_impl; [|exact I1]. unfold inside; intros y Hy; lia.
    - (* GTailed1 *) intros sep f e p q vs n b D IH NE Ch se i mv tm pt r T E -> C. unfold tchk in C. cbn [chk] in C. fold tchk in C.
      destruct (tchk [] 0 still f) as [rx|] eqn:X; [|discriminate]. apply some_inj in C; subst r.
      assert (valid (pt i)) as Vi by (apply (tl_valid _ _ _ _ _ T); lia). apply (tailed_rv _ _ (pt i) _ f); auto. eapply tl_time; eauto.
    - (* GResume *) intros sep f e p p1 q vs Bt _ D IH Ch se i mv tm pt r T E -> C. unfold tchk in C. cbn [chk] in C. fold tchk in C.
      destruct (tchk [] 0 still f) as [rx|] eqn:X; [|discriminate]. apply some_inj in C; subst r.
      assert (valid (pt i)) as Vi by (apply (tl_valid _ _ _ _ _ T); lia). destruct (between_mono _ WF _ _ _ _ Bt Vi) as [V1 L1].
      destruct (IH _ V1 X) as (I1 & I2 & I3 & I4). pose proof (sb_mono _ WF _ _ Vi V1 L1).
      constructor; cbn [r_lo r_emp r_sf r_sfx r_slf r_po extents deinfix]; auto; try discriminate.
      + rewrite (tl_time _ _ _ _ _ T) by lia. eapply Forall_impl; [|exact I1]. unfold inside; intros y Hy; lia.
      + now exists 0.
    - (* GResume, nothing *) intros sep f e p se i mv tm pt r T E -> C. unfold tchk in C. cbn [chk] in C. fold tchk in C.
      destruct (tchk [] 0 still f) as [rx|] eqn:X; [|discriminate]. apply some_inj in C; subst r.
      constructor; cbn [r_lo r_emp r_sf r_sfx r_slf r_po extents deinfix flat_map]; auto; try discriminate; try (intros; constructor; fail).
      + now exists 0.
      + apply laid_nil.
    - (* GImplicit *) intros sep f e p q vs n b D IH Ch se i mv tm pt r T E -> C. unfold tchk in C. cbn [chk] in C. fold tchk in C.
      destruct (tchk [] 0 still f) as [rx|] eqn:X; [|discriminate]. apply some_inj in C; subst r.
      assert (valid (pt i)) as Vi by (apply (tl_valid _ _ _ _ _ T); lia). apply (tailed_rv _ _ (pt i) _ f); auto. eapply tl_time; eauto.
    - (* GNested *) intros o c e p q v pm S N se i mv tm pt r T E -> C. unfold tchk in C. cbn [chk] in C. apply some_inj in C; subst r.
      assert (valid (pt i)) as Vi by (apply (tl_valid _ _ _ _ _ T); lia).
      unfold nested in N. destruct (ex toks (pt i) _) as [x|] eqn:X; [|discriminate]. injection N as <- <-.
      destruct (nested_ok _ WF o c pm (pt i) Vi S) as (q' & x' & R & Vq & L & _). unfold nested in R. rewrite X in R. injection R as <- <-.
      apply ext_rv with (p := pt i); auto; [eapply tl_time; eauto|]. right. intros NE.
      pose proof (ex_teb _ WF _ _ _ Vi Vq L X NE) as Q. unfold eb. unfold teb in Q. cbn [sub sub_rank] in *. lia.
    - (* GExt *) intros x e p q v x' D _ X se i mv tm pt r T E -> C. unfold tchk in C. cbn [chk] in C. fold tchk in C. apply some_inj in C; subst r.
      assert (valid (pt i)) as Vi by (apply (tl_valid _ _ _ _ _ T); lia). destruct (der_mono _ WF _ _ _ _ _ D Vi) as [Vq L].
      apply ext_rv with (p := pt i); auto; [eapply tl_time; eauto|].
      destruct (tdadv x || tsadv x) eqn:TD; [|now left]. right. intros NE. apply (ex_eb _ WF _ _ _ Vi Vq L X); [|auto].
      apply orb_true_iff in TD as [TD|TD]; [right; eapply der_adv; eauto|eapply der_still; eauto].
    - (* GPeek *) intros x e p q v D _ se i mv tm pt r T E -> C. unfold tchk in C. cbn [chk] in C. fold tchk in C. apply some_inj in C; subst r.
      constructor; cbn [r_lo r_emp r_sf r_sfx r_slf r_po extents deinfix flat_map]; auto; try discriminate; try (intros; constructor; fail).
      + now exists 0.
    - (* GSimple *) intros x err e p q n x' D IH S se i mv tm pt r T E -> C. unfold tchk in C. cbn [chk] in C. fold tchk in C.
      destruct (tchk se i mv x) as [rx|] eqn:X; [|discriminate]. apply some_inj in C; subst r.
      destruct (IH _ _ _ _ _ _ T E eq_refl X) as [R1 R2 R3 R4 R5 R6 R7 R8 R9].
      assert (In x' (extents (VNum n))) as IN.
      { unfold into_simple in S. destruct (n_radix n); try discriminate. destruct (n_fractional n), (n_exponent n), (n_type_suffix n), (n_underscores n); try discriminate.
        injection S as <-. now left. }
      assert (incl [x'] (extents (VNum n))) as IC by (intros y [<-|[]]; auto).
      constructor; cbn [r_lo r_emp r_sf r_sfx r_slf r_po extents deinfix]; auto; try discriminate.
      + eapply Forall_incl; eauto.
      + eapply Forall_incl; eauto.
      + intros SF. eapply Forall_incl; [exact IC|apply R5; auto].
      + intros SF. eapply Forall_incl; [exact IC|apply R5; auto].
      + intros _ y [= <-]. constructor; [intros _; lia|constructor].
      + now exists 0.
      + exact I.
    - (* GIfAmb *) intros a b e p q v D IH se i mv tm pt r T E -> C. unfold tchk in C. cbn [chk] in C. fold tchk in C.
      destruct (tchk se i mv a) as [ra|] eqn:Xa; cbn [obind] in C; [|discriminate]. destruct (tchk se i mv b) as [rb|] eqn:Xb; [|discriminate]. apply some_inj in C; subst r.
      eapply Rv_meet_l; [exact T|]. exact (IH _ _ _ _ _ _ T E eq_refl Xa).
    - intros a b e p q v D IH se i mv tm pt r T E -> C. unfold tchk in C. cbn [chk] in C. fold tchk in C.
      destruct (tchk se i mv a) as [ra|] eqn:Xa; cbn [obind] in C; [|discriminate]. destruct (tchk se i mv b) as [rb|] eqn:Xb; [|discriminate]. apply some_inj in C; subst r.
      eapply Rv_meet_r; [exact T|]. exact (IH _ _ _ _ _ _ T E eq_refl Xb).
    - (* GShunt *) intros stmt e c D IH se i mv tm pt r T E P C. unfold tchk in C. cbn [chk] in C. apply some_inj in C; subst r.
      assert (valid (c_spt c)) as Vi by (rewrite P; apply (tl_valid _ _ _ _ _ T); lia). destruct (IH Vi) as ((A & B & L) & S).
      destruct (etree_mono _ WF _ D Vi) as [Ve Le].
      constructor; cbn [r_lo r_emp r_sf r_sfx r_slf r_po]; auto; try discriminate.
      + rewrite (tl_time _ _ _ _ _ T) by lia. rewrite <- P. auto.
      + eapply ends_mono; [|exact B]. now apply eb_teb.
      + intros _. now apply ends_deinfix.
      + now exists 0.
    - (* no more steps *) intros e p se i mv tm pt se' i' mv' T E -> W. injection W as <- <- <-. exists tm, pt. auto 8.
    - (* a step *) intros pp x steps e p q v e1 e' r D IH B DS IHs se i mv tm pt se' i' mv' T E -> W.
      assert (valid (pt i)) as Vi by (apply (tl_valid _ _ _ _ _ T); lia). destruct (der_mono _ WF _ _ _ _ _ D Vi) as [Vq L].
      pose proof (sb_mono _ WF _ _ Vi Vq L) as LS.
      assert (exists m se1, sb (pt i) <= m /\ m <= sb q /\ envok (i + 1) (tmx i tm m (sb q)) (ptx i pt q) se1 e1 /\
                walk tchk steps se1 (i + 1) (moved i x mv) = Some (se', i', mv')) as (m & se1 & M1 & M2 & E1 & W1).
      { cbn [walk] in W.
        assert ((exists y, pp = PVar y /\ x = GPoint) \/
                exists rx, tchk se i mv x = Some rx /\ walk tchk steps (bind_at pp (step_at i rx) se) (i + 1) (moved i x mv) = Some (se', i', mv')) as [(y & -> & ->)|(rx & X & W')].
        { destruct pp as [y|]; [destruct x; try (left; eauto; fail)|];
            right; match type of W with context [tchk se i mv ?z] => destruct (tchk se i mv z) as [rx|]; cbn [omap] in W; [eauto|discriminate] end. }
        - apply inv_point in D as [-> ->]. cbn [bind_pat] in B. injection B as <-. exists (sb (pt i)), ((y, EP i) :: se).
          split; [lia|]. split; [lia|]. split; [|exact W]. intros z t Z. cbn [assoc] in *. destruct (String.eqb z y).
          + injection Z as <-. eexists. split; [reflexivity|]. cbn [entry_ok]. split; [lia|]. now rewrite ptx_old by lia.
          + revert z t Z. change (envok (i + 1) (tmx i tm (sb (pt i)) (sb (pt i))) (ptx i pt (pt i)) se e).
            eapply envok_agree; [| | |exact E]; [intros; now apply tmx_old|intros; now apply ptx_old|lia].
        - pose proof (IH _ _ _ _ _ _ T E eq_refl X) as R.
          destruct (Rv_step _ _ _ _ _ _ _ _ _ T D R) as (m & M1 & M2 & Wa & Aa). exists m, (bind_at pp (step_at i rx) se).
          split; [auto|]. split; [auto|]. split; [|exact W'].
          eapply bind_ok; [exact Wa|exact Aa|exact B|].
          eapply envok_agree; [| | |exact E]; [intros; now apply tmx_old|intros; now apply ptx_old|lia]. }
      pose proof (TL_step _ _ _ _ _ _ _ _ _ T D M1 M2) as T1.
      destruct (IHs _ _ _ _ _ _ _ _ T1 E1 ltac:(symmetry; apply ptx_new; lia) W1) as (tm' & pt' & T' & E' & Q & Li & Tm & Tp).
      exists tm', pt'. split; [auto|]. split; [auto|]. split; [auto|]. split; [lia|]. split.
      + intros k K. rewrite Tm by lia. now apply tmx_old.
      + intros k K. rewrite Tp by lia. now apply ptx_old.
    - (* no more items *) intros so f e p q Vq L _ _ r Vp X. cbn [flat_map]. repeat split; constructor.
    - (* an item *) intros so f e p p1 p2 q v vs D IH Bt _ DI IHi r Vp X.
      destruct (der_mono _ WF _ _ _ _ _ D Vp) as [V1 L1]. destruct (between_mono _ WF _ _ _ _ Bt V1) as [V2 L2].
      destruct (items_mono _ WF _ _ _ _ _ _ DI V2) as [Vq L3]. destruct (IHi _ V2 X) as (I1 & I2 & I3 & I4).
      destruct (der_top _ _ _ _ _ _ IH Vp X) as [R1 R2 R3 R4 R5 R6 R7 R8 R9].
      pose proof (sb_mono _ WF _ _ Vp V1 L1). pose proof (sb_mono _ WF _ _ V1 V2 L2). pose proof (sb_mono _ WF _ _ V2 Vq L3).
      pose proof (teb_mono _ WF _ _ V1 Vq ltac:(lia)). pose proof (eb_mono _ WF _ _ V1 Vq ltac:(lia)).
      cbn [flat_map]. split; [|split; [|split]].
      + apply Forall_app. split; [eapply Forall_impl; [|exact R3]|eapply Forall_impl; [|exact I1]]; unfold inside; intros y Hy; lia.
      + apply Forall_app. split; [|exact I2]. eapply ends_mono; [|exact R4]. auto.
      + intros SF. apply Forall_app. split; [|exact (I3 SF)]. eapply ends_mono; [|exact (R5 SF)]. auto.
      + apply list_laid; [|auto|].
        * apply laid_list. split; [constructor; [auto|constructor]|]. constructor; constructor.
        * apply Forall_forall. intros w Hw. apply before_sep with (m := sb p1).
          -- eapply Forall_impl; [|exact R3]. unfold inside; intros y Hy; lia.
          -- apply Forall_forall. intros y Hy. rewrite Forall_forall in I1. specialize (I1 y). unfold inside in I1.
             assert (In y (flat_map extents vs)) as IN by (apply in_flat_map; eauto). specialize (I1 IN). lia.
    - (* an atom *) intros p q en v D IH L V. cbn [c_spt c_ept c_val] in *.
      assert (tchk [] 0 still (GNT N_expression_prefix_or_atom) = Some (mkPa false 0 false true true PoNo)) as C by reflexivity.
      destruct (der_top _ _ _ _ _ _ IH V C) as [R1 R2 R3 R4 R5 R6 R7 R8 R9]. cbn [r_lo r_emp r_sf r_sfx r_slf r_po] in *.
      specialize (R6 eq_refl). cbn in R6. split; [repeat split; auto|]. exact (R7 eq_refl).
    - (* a prefix operator *) intros en op s c c' res D IH L T IHt A E1 E2 V. rewrite E1 in V.
      destruct (der_mono _ WF _ _ _ _ _ D V) as [V1 L1]. destruct (IHt V1) as [Cc _]. pose proof (etree_adv _ WF _ T V1) as Ad.
      destruct (etree_mono _ WF _ T V1) as [V2 L2]. destruct (nt_half _ _ _ _ _ _ _ _ (eq_refl : nattr N_expression_prefix_or_atom = (false, true, true, PoNo)) IH V) as [H _].
      apply half_var in H. apply inv_prefix in D as (m & x & l & w & -> & X & _). apply half_op in H as [Hl Hw].
      destruct (ex_ok _ WF _ _ V V1 L1) as (x' & X' & F1 & _). rewrite X in X'. injection X' as <-.
      assert (pos s <= pos (c_ept c)) as L3 by lia. pose proof (pos_off _ _ _ V V1 L1) as O1.
      assert (off s < off (c_ept c)) as O3 by lia. rewrite E1, E2.
      pose proof (car_wide _ s _ (c_ept c) _ V1 V V2 V2 L1 ltac:(lia) Cc) as Cw.
      destruct w as [| | | | | | | | | | |en' k w]; cbn [apply_one] in A; try discriminate. apply half_var in Hw.
      pose proof (half_car _ _ _ _ V1 V2 L2 (or_introl Ad) Hl) as Cl.
      pose proof (half_car _ _ _ _ V1 V2 L2 (or_introl Ad) Hw) as Cp.
      pose proof (half_before _ _ _ _ _ Hw Cc) as Bw.
      assert (forall v kk f fs, apply_prefix toks (c :: res) s (c_spt c) x (VList l) f = AOk (c' :: res) ->
                (forall y, f y (c_val c) = expr_node v kk (VExt y :: fs)) -> first_extent kk = true ->
                (forall y, prefix_operation (expr_node v kk (VExt y :: fs)) = true) ->
                Forall (car_ok s (c_ept c)) fs -> ForallOrdPairs before fs ->
                car_ok s (c_ept c) (c_val c') /\ selfv (c_val c')) as K.
      { intros v0 kk f fs P F K1 K2 K3 K4. apply apply_prefix_val in P as (y & Y & ->). rewrite F.
        destruct (ex_ok _ WF _ _ V V2 L3) as (y' & Y' & G1 & _). rewrite Y in Y'. injection Y' as <-.
        rewrite F1, <- G1, <- surjective_pairing. apply prefix_ok; auto. }
      assert (forall v, before v (VList [])) as Bn by (intros; now apply before_nil_r).
      assert (forall v, before VNone v) as Bo by (intros; now apply before_nil_l).
      assert (forall en t v, before (VVar en t VUnit) v) as Bu by (intros; now apply before_nil_l).
      assert (car_ok s (c_ept c) (VList [])) as C0 by (apply car_nothing; auto).
      assert (car_ok s (c_ept c) VNone) as C1 by (apply car_nothing; auto).
      assert (car_ok s (c_ept c) (VVar "UnaryOp" k VUnit)) as C2 by (apply car_nothing; eauto).
      assert (before w (VSome (c_val c))) as Bs by exact Bw.
      repeat match type of A with (if ?b then _ else _) = _ => destruct b end; unfold apply_maybe_prefix in A;
        (eapply (K _ _ _ _ A); [intros; reflexivity|reflexivity|intros; reflexivity| |]; [repeat apply Forall_cons; auto|pairs; auto]).
    - (* a range without an end *) intros en op s e c' D IH L A E1 E2 V. rewrite E1 in V. rewrite E1, E2.
      destruct (prefix_range _ WF _ _ _ _ _ _ D V A) as [O3 SN].
      destruct (der_mono _ WF _ _ _ _ _ D V) as [V1 L1].
      destruct (nt_half _ _ _ _ _ _ _ _ (eq_refl : nattr N_expression_prefix_or_atom = (false, true, true, PoNo)) IH V) as [H _].
      apply half_var in H. apply inv_prefix in D as (m & x & l & w & -> & X & _). apply half_op in H as [Hl Hw].
      destruct w as [| | | | | | | | | | |en' k w]; cbn [apply_one] in A; try discriminate. apply half_var in Hw.
      pose proof (half_car _ _ _ _ V1 V1 (le_n _) (or_intror (conj eq_refl SN)) Hl) as Cl.
      pose proof (half_car _ _ _ _ V1 V1 (le_n _) (or_intror (conj eq_refl SN)) Hw) as Cp.
      destruct (ex_ok _ WF _ _ V V1 L1) as (x' & X' & F1 & _). rewrite X in X'. injection X' as <-.
      assert (forall v kk f fs, apply_maybe_prefix toks [] s e x (VList l) f = AOk [c'] ->
                (forall y, f y VNone = expr_node v kk (VExt y :: fs)) -> first_extent kk = true ->
                (forall y, prefix_operation (expr_node v kk (VExt y :: fs)) = true) ->
                Forall (car_ok s e) fs -> ForallOrdPairs before fs ->
                car_ok s e (c_val c') /\ selfv (c_val c')) as K.
      { intros v0 kk f fs P F K1 K2 K3 K4. unfold apply_maybe_prefix in P. rewrite X in P. cbn [a_of_b abind] in P. injection P as <-. cbn [c_val].
        rewrite F, <- surjective_pairing. apply prefix_ok; auto. }
      assert (forall v, before v (VList [])) as Bn by (intros; now apply before_nil_r).
      assert (forall v, before v VNone) as Bm by (intros; now apply before_nil_r).
      assert (forall v, before VNone v) as Bo by (intros; now apply before_nil_l).
      assert (car_ok s e (VList [])) as C0 by (apply car_nothing; auto).
      assert (car_ok s e VNone) as C1 by (apply car_nothing; auto).
      repeat match type of A with (if ?b then _ else _) = _ => destruct b; [try discriminate|] end; try discriminate;
        (eapply (K _ _ _ _ A); [intros; reflexivity|reflexivity|intros; reflexivity| |]; [repeat apply Forall_cons; auto|pairs; auto]).
    - (* an infix operator *) intros en op l r c' Tl IHl Tr IHr D IH L A E1 E2 V. rewrite E1 in V. rewrite E1, E2.
      destruct (IHl V) as [Cl _]. pose proof (etree_adv _ WF _ Tl V) as Al. destruct (etree_mono _ WF _ Tl V) as [V1 L1].
      destruct (der_mono _ WF _ _ _ _ _ D V1) as [V2 L2]. destruct (IHr V2) as [Cr _]. pose proof (etree_adv _ WF _ Tr V2) as Ar.
      destruct (etree_mono _ WF _ Tr V2) as [V3 L3]. pose proof (pos_off _ _ _ V1 V2 L2) as O1.
      destruct (nt_half _ _ _ _ _ _ _ _ (eq_refl : nattr N_expression_infix_or_postfix = (false, true, false, PoNo)) IH V1) as [H _].
      apply half_var in H. destruct op as [| | | | | | | | | | |en' k w]; cbn [apply_one] in A; try discriminate. apply half_var in H.
      pose proof (half_car _ _ _ _ V2 V3 L3 (or_introl Ar) H) as Cp.
      pose proof (half_before _ _ _ _ _ H Cr) as B2. pose proof (car_before _ _ _ _ _ _ V1 V1 (le_n _) Cl Cp) as B1.
      pose proof (car_before _ _ _ _ _ _ V1 V2 L2 Cl Cr) as B3.
      assert (pos (c_spt l) <= pos (c_ept r)) as L4 by lia.
      pose proof (car_wide _ (c_spt l) _ (c_ept r) _ V V V1 V3 ltac:(lia) ltac:(lia) Cl) as Cl'.
      pose proof (car_wide _ (c_spt l) _ (c_ept r) _ V2 V V3 V3 ltac:(lia) ltac:(lia) Cr) as Cr'.
      pose proof (car_wide _ (c_spt l) _ (c_ept r) _ V1 V V3 V3 ltac:(lia) ltac:(lia) Cp) as Cp'.
      assert (forall v kk f fs, apply_infix toks [r; l] (c_ept l) (c_spt r) f = AOk [c'] ->
                (forall y, f y (c_val l) (c_val r) = expr_node v kk (VExt y :: fs)) -> first_extent kk = true ->
                Forall (car_ok (c_spt l) (c_ept r)) fs -> ForallOrdPairs before fs ->
                car_ok (c_spt l) (c_ept r) (c_val c') /\ selfv (c_val c')) as K.
      { intros v0 kk f fs P F K1 K3 K4. apply apply_infix_val in P as (y & Y & ->). rewrite F. apply expr_ok; auto. lia. }
      assert (forall v, before v (VList [])) as Bn by (intros; now apply before_nil_r).
      assert (forall en t v, before (VVar en t VUnit) v) as Bu by (intros; now apply before_nil_l).
      assert (car_ok (c_spt l) (c_ept r) (VList [])) as C0 by (apply car_nothing; auto).
      assert (car_ok (c_spt l) (c_ept r) (VVar "BinaryOp" k VUnit)) as C2 by (apply car_nothing; eauto).
      repeat match type of A with (if ?b then _ else _) = _ => destruct b end; unfold apply_maybe_infix in A; cbn [length Nat.leb] in A;
        (eapply (K _ _ _ _ A); [intros; reflexivity|reflexivity| |]; [repeat apply Forall_cons; auto|pairs; auto]).
    - (* a range without an end *) intros en op l e c' Tl IHl D IH L A E1 E2 V. rewrite E1 in V. rewrite E1, E2.
      destruct (IHl V) as [Cl _]. pose proof (etree_adv _ WF _ Tl V) as Al. destruct (etree_mono _ WF _ Tl V) as [V1 L1].
      destruct (der_mono _ WF _ _ _ _ _ D V1) as [V2 L2]. pose proof (pos_off _ _ _ V1 V2 L2) as O1.
      destruct (nt_half _ _ _ _ _ _ _ _ (eq_refl : nattr N_expression_infix_or_postfix = (false, true, false, PoNo)) IH V1) as [H _].
      apply half_var in H. destruct op as [| | | | | | | | | | |en' k w]; cbn [apply_one] in A; try discriminate. apply half_var in H.
      assert (pos (c_spt l) <= pos e) as L4 by lia.
      pose proof (car_wide _ (c_spt l) _ e _ V V V1 V2 ltac:(lia) ltac:(lia) Cl) as Cl'.
      assert (forall v kk f fs, apply_maybe_infix toks [l] (c_ept l) e f = AOk [c'] ->
                (forall y, f y (c_val l) VNone = expr_node v kk (VExt y :: fs)) -> first_extent kk = true ->
                Forall (car_ok (c_spt l) e) fs -> ForallOrdPairs before fs ->
                car_ok (c_spt l) e (c_val c') /\ selfv (c_val c')) as K.
      { intros v0 kk f fs P F K1 K3 K4. unfold apply_maybe_infix in P. cbn [length Nat.leb pop_expression abind] in P.
        destruct (ex toks (c_spt l) e) as [y|] eqn:Y; cbn [a_of_b abind] in P; [|discriminate]. injection P as <-. cbn [c_val].
        rewrite F. apply expr_ok; auto. lia. }
      assert (forall v, before v (VList [])) as Bn by (intros; now apply before_nil_r).
      assert (forall v, before v VNone) as Bm by (intros; now apply before_nil_r).
      assert (car_ok (c_spt l) e (VList [])) as C0 by (apply car_nothing; auto).
      assert (car_ok (c_spt l) e VNone) as C1 by (apply car_nothing; auto).
      destruct (String.eqb k "RangeInclusive") eqn:Ek.
      + apply String.eqb_eq in Ek. subst k. apply infix_range in D as [O2 SN]; auto.
        pose proof (half_car _ _ _ _ V2 V2 (le_n _) (or_intror (conj eq_refl SN)) H) as Cp.
        pose proof (car_before _ _ _ _ _ _ V1 V1 (le_n _) Cl Cp) as B1.
        pose proof (car_wide _ (c_spt l) _ e _ V1 V V2 V2 ltac:(lia) ltac:(lia) Cp) as Cp'.
        eapply (K _ _ _ _ A); [intros; reflexivity|reflexivity| |]; [repeat apply Forall_cons; auto|pairs; auto].
      + destruct (String.eqb k "RangeExclusive"); [|discriminate].
        eapply (K _ _ _ _ A); [intros; reflexivity|reflexivity| |]; [repeat apply Forall_cons; auto|pairs; auto].
    - (* a postfix operator *) intros en op c e c' T IHt D IH L A E1 E2 V. rewrite E1 in V. rewrite E1, E2.
      destruct (IHt V) as [Cc _]. destruct (etree_mono _ WF _ T V) as [V1 L1].
      destruct (nt_half _ _ _ _ _ _ _ _ (eq_refl : nattr N_expression_infix_or_postfix = (false, true, false, PoNo)) IH V1) as ((H1 & H2 & H3) & _ & H4).
      specialize (H4 eq_refl). cbn in H4. exact (postfix_ok c e op c' V V1 L1 (etree_adv _ WF _ T V) (der_mono _ WF _ _ _ _ _ D V1) Cc (conj H1 (conj H4 H3)) A).
    - intros op c e c' T IHt D IH L A E1 E2 V. rewrite E1 in V. rewrite E1, E2.
      destruct (IHt V) as [Cc _]. destruct (etree_mono _ WF _ T V) as [V1 L1].
      destruct (nt_half _ _ _ _ _ _ _ _ (eq_refl : nattr N_operator_postfix_limited = (true, true, true, PoNo)) IH V1) as (_ & H & _).
      specialize (H eq_refl). exact (postfix_ok _ _ _ _ V V1 L1 (etree_adv _ WF _ T V) (der_mono _ WF _ _ _ _ _ D V1) Cc H A).
  Qed.
End SpansDer.
