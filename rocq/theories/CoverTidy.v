(** Every node of a syntax tree accounts for its tokens. *)

From Coq Require Import String List Arith Bool Lia.
From Verif Require Import Base Peresil Token Schema Value Nt Grammar Points Table Static Typing FileToks Split SpanSpec MarkSpec LandSpec Deriv DerivMono.
From Verif Require Import Marks MarksOk Spans SpansOk SpansDer Expect Honest CoverSpec Cover CoverOk.
Import ListNotations.
Local Open Scope string_scope.
Local Open Scope list_scope.
Local Open Scope nat_scope.

(** Equal builders are equal. *)
Lemma beqb_eq a : forall b, beqb a b = true -> a = b.
Proof.
  induction a as [y|y|y z| | | |a IH|a IH|a IH|a IH|a d IH IHd|k fs IH|en vn a IH|a d IHa IHd|a IH|a IH
                 |f a IH|a IH|a IH|a IH|a IH|s t IHs IHu|s t IHs IHu|s t IHs IHu|a IH] using bexp_ind'; intros b H; destruct b; cbn [beqb] in H; try discriminate;
    try (apply String.eqb_eq in H; now subst); auto.
  - apply andb_true_iff in H as [H1 H2]. apply String.eqb_eq in H1, H2. now subst.
  - f_equal. auto.
  - apply andb_true_iff in H as [H1 H2]. apply String.eqb_eq in H1. subst. f_equal. match type of H2 with _ fs ?l = true => revert l H2 end.
    induction fs as [|[f a] fs IHf]; intros [|[f' b] l] H; try discriminate; auto. apply Forall_cons_iff in IH as [I1 I2].
    apply andb_true_iff in H as [H H3]. apply andb_true_iff in H as [H1 H2]. apply String.eqb_eq in H1. subst. f_equal; [f_equal; auto|]. exact (IHf I2 _ H3).
  - apply andb_true_iff in H as [H H3]. apply andb_true_iff in H as [H1 H2]. apply String.eqb_eq in H1, H2. subst. f_equal. auto.
  - apply andb_true_iff in H as [H1 H2]. apply String.eqb_eq in H1. subst. f_equal. auto.
Qed.

Section CoverTidy.
  Variable toks : list token.
  Hypothesis WF : wf_toks toks.
  Notation valid := (valid toks).
  Notation holds := (holds toks).
  Notation reads := (CoverOk.reads toks).
  Notation tidied := (tidied toks).
  Notation accounted := (accounted toks).
  Notation segs := (segs toks).

  (** * Nodes *)

  Definition inner (fs : list (string * bexp)) (vs : list val) : list extent :=
    flat_map (fun x => if String.eqb (fst x) "extent" then [] else extents (snd x)) (combine (map fst fs) vs).

  Lemma inner_is k fs vs : names_chk k (map fst fs) = true -> inner_extents k vs = inner fs vs.
  Proof. unfold names_chk, inner_extents, inner. destruct (struct_fields k); [|discriminate]. intros H. apply names_eqb_eq in H. now rewrite H. Qed.

  Lemma field_keeps_ok e q fs vs : Forall2 (fun f v => beval toks q e (snd f) = BOk v) fs vs -> Forall (keptok e (inner fs vs)) (field_keeps fs).
  Proof.
    induction 1 as [|[f b] v fs vs B F IH]; [constructor|]. unfold field_keeps, inner in *. cbn [map combine flat_map fst snd] in *. apply Forall_app. split.
    - destruct (String.eqb f "extent"); [constructor|]. eapply keptoks_incl; [|eapply keeps_ok; exact B]. apply incl_appl, incl_refl.
    - eapply keptoks_incl; [|exact IH]. apply incl_appr, incl_refl.
  Qed.

  Lemma field_inner e q fs vs f b : Forall2 (fun f v => beval toks q e (snd f) = BOk v) fs vs -> In (f, b) fs -> String.eqb f "extent" = false ->
    exists v, beval toks q e b = BOk v /\ incl (extents v) (inner fs vs).
  Proof.
    induction 1 as [|[f' b'] v fs vs B F IH]; intros I N; [destruct I|]. unfold inner in *. cbn [map combine flat_map fst snd] in *. destruct I as [[= -> ->]|I].
    - exists v. split; [auto|]. rewrite N. apply incl_appl, incl_refl.
    - destruct (IH I N) as (w & B' & J). exists w. split; [auto|]. apply incl_appr, J.
  Qed.

  Lemma holds_accounts W l k p q x t : valid p -> valid q -> pos p <= pos q -> ex toks p q = BOk x -> holds W p q l -> incl W (own_words k) ->
    In t toks -> fst (token_extent t) < snd (token_extent t) -> compound t = false -> lies_in t x ->
    (exists w e, t = Tk w e /\ In w (own_words k)) \/ exists z, In z l /\ lies_in t z.
  Proof.
    intros Vp Vq L X H J I S C T. apply In_nth_error in I as (i & I). pose proof (in_ex _ WF _ _ _ _ _ Vp Vq L X I C S T) as R.
    destruct (H _ _ I C R) as [(w & e & -> & K)|(z & K & Z)]; [left; eauto|right; eauto].
  Qed.

  Lemma node_tidy_ok steps e p q k fs vs : valid p -> segs e [] steps p q -> node_tidy steps k fs = true ->
    Forall2 (fun f v => beval toks q e (snd f) = BOk v) fs vs -> is_tidy k = true -> accounted k vs.
  Proof.
    intros V S H F T x t G I So C Li. unfold node_tidy in H. rewrite T in H. cbn [negb orb] in H. apply andb_true_iff in H as [H N].
    apply ksub_ok in H as (W & NW & J). rewrite (inner_is _ _ _ N). pose proof (field_keeps_ok _ _ _ _ F) as K.
    assert (exists b, assoc "extent" fs = Some b /\ beval toks q e b = BOk (VExt x)) as (b & A & B).
    { unfold names_chk in N. unfold get_field in G. destruct (struct_fields k) as [fields|]; [|discriminate]. destruct (field_index "extent" fields) as [i|] eqn:X; [|discriminate].
      apply names_eqb_eq in N. eapply (fields_assoc (fun b v => beval toks q e b = BOk v)); eauto. }
    unfold node_words in NW. rewrite A in NW. destruct b as [|z|z y| | | | | | | | | | | | | |f b|b| | | | | | |]; try discriminate.
    - destruct (steps_from z steps) as [l|] eqn:SF; [|discriminate]. destruct (segs_from _ _ _ _ _ _ _ V SF S) as (r & Ar & Vr & Lr & Sr).
      destruct (segs_mono _ _ _ _ _ _ Vr Sr) as [Vq Lq]. cbn [beval] in B. rewrite Ar in B. cbn [as_point bbind] in B.
      destruct (ex toks r q) as [x'|] eqn:X; cbn [bbind] in B; [|discriminate]. injection B as ->.
      apply (holds_accounts W _ k r q x); auto. exact (segs_holds _ _ _ _ _ _ K _ _ _ NW Sr).
    - destruct (steps_from z steps) as [l|] eqn:SF; [|discriminate]. destruct (segs_from _ _ _ _ _ _ _ V SF S) as (r & Ar & Vr & Lr & Sr).
      destruct (steps_to y l) as [[m later]|] eqn:ST; [|discriminate]. destruct (segs_to _ _ _ _ _ _ _ _ Vr ST Sr) as (r' & Ar' & Vr' & Lr' & Sm).
      cbn [beval] in B. rewrite Ar, Ar' in B. cbn [as_point bbind] in B.
      destruct (ex toks r r') as [x'|] eqn:X; cbn [bbind] in B; [|discriminate]. injection B as ->.
      apply (holds_accounts W _ k r r' x); auto. exact (segs_holds _ _ _ _ _ _ K _ _ _ NW Sm).
    - destruct b as [z| | | | | | | | | | | | | | | | | | | | | | | |]; try discriminate. destruct (has_kept (field_keeps fs) (KAll z)) eqn:HK; [|discriminate].
      apply has_kept_in in HK. rewrite Forall_forall in K. specialize (K _ HK). cbn [keptok] in K. cbn [beval] in B.
      destruct (assoc z e) as [w|] eqn:Az; cbn [bbind] in B; [|discriminate]. destruct (get_field f w) as [u|] eqn:Gu; [|discriminate]. injection B as ->.
      right. exists x. split; [|auto]. apply (K _ eq_refl). apply (get_field_incl _ _ _ Gu). now left.
    - destruct (existsb _ fs) eqn:E; [|discriminate]. apply existsb_exists in E as ([f' b'] & If & E). cbn [fst snd] in E. apply andb_true_iff in E as [E1 E2].
      apply negb_true_iff in E1. apply beqb_eq in E2. subst b'. destruct (field_inner _ _ _ _ _ _ F If E1) as (v & Bv & Iv).
      cbn [beval] in B. rewrite Bv in B. cbn [bbind] in B. destruct (extent_of v) as [x'|] eqn:X; [|discriminate]. injection B as ->.
      right. exists x. split; [|auto]. apply Iv. now apply extent_of_in.
  Qed.

  (** * Values *)

  Definition etidied (e : env) : Prop := Forall (fun b => tidied (snd b)) e.

  Lemma tidied_all l : fold_right (fun x P => tidied x /\ P) True l <-> Forall tidied l.
  Proof.
    induction l as [|v l IH]; cbn [fold_right]; [split; [constructor|auto]|]. rewrite IH. split.
    - intros []. now constructor.
    - intros H. inversion H; auto.
  Qed.
  Lemma tidied_list l : tidied (VList l) <-> Forall tidied l.
  Proof. apply tidied_all. Qed.
  Lemma tidied_node k fs : tidied (VNode k fs) <-> Forall tidied fs /\ (is_tidy k = true -> accounted k fs).
  Proof. cbn [CoverSpec.tidied]. now rewrite tidied_all. Qed.

  Lemma tidied_field f v w : tidied v -> get_field f v = Some w -> tidied w.
  Proof. intros L G. apply get_field_in in G as (k & fs & -> & J). apply tidied_node in L as [L _]. rewrite Forall_forall in L. auto. Qed.

  Lemma assoc_tidied e x v : etidied e -> assoc x e = Some v -> tidied v.
  Proof. intros E A. apply SpansOk.assoc_in in A. unfold etidied in E. rewrite Forall_forall in E. exact (E _ A). Qed.

  Lemma bind_tidied pt : forall v e e1, tidied v -> etidied e -> bind_pat pt v e = Some e1 -> etidied e1.
  Proof.
    induction pt as [x|p1 IH1 p2 IH2]; intros v e e1 L E B; cbn [bind_pat] in B.
    - injection B as <-. constructor; auto.
    - destruct v; try discriminate. destruct (bind_pat p1 v1 e) as [e2|] eqn:B1; [|discriminate]. destruct L as [L1 L2]. eauto.
  Qed.

  Lemma block_tidied l b : Forall tidied l -> Forall tidied (fst (block_split l b)) /\ tidied (snd (block_split l b)).
  Proof.
    intros F. destruct (block_cases l b) as [E|(en & l' & v & L & E)]; rewrite E; cbn [fst snd]; [split; [auto|exact I]|].
    subst l. apply Forall_app in F as [F1 F2]. inversion F2; subst. split; [auto|]. assumption.
  Qed.

  Lemma other_node k fs : is_tidy k = false -> Forall tidied fs -> tidied (VNode k fs).
  Proof. intros N F. apply tidied_node. split; [auto|]. congruence. Qed.

  Ltac fields := repeat apply Forall_cons; try apply Forall_nil; try exact I; auto.

  Section Build.
    Variables (steps : list (pat * g)) (e : env) (p q : point) (V : valid p) (S : segs e [] steps p q) (E : etidied e).
    Notation bev := (beval toks q e).

    Lemma btidy_ok b : btidy steps b = true -> forall v, bev b = BOk v -> tidied v.
    Proof.
      induction b as [y|y|y z| | | |b IH|b IH|b IH|b IH|b d IH IHd|k fs IH|en vn b IH|a b IHa IHb|b IH|b IH
                   |f b IH|b IH|b IH|b IH|b IH|s t IHs IHu|s t IHs IHu|s t IHs IHu|b IH] using bexp_ind'; intros C v B; cbn [btidy] in C; cbn [beval] in B.
      - destruct (assoc y e) as [w|] eqn:A; [|discriminate]. injection B as <-. eapply assoc_tidied; eauto.
      - destruct (as_point (assoc y e)); cbn [bbind] in B; [|discriminate]. destruct (ex toks _ _); cbn [bbind] in B; [|discriminate]. injection B as <-. exact I.
      - destruct (as_point (assoc y e)); cbn [bbind] in B; [|discriminate]. destruct (as_point (assoc z e)); cbn [bbind] in B; [|discriminate].
        destruct (ex toks _ _); cbn [bbind] in B; [|discriminate]. injection B as <-. exact I.
      - injection B as <-. exact I.
      - injection B as <-. exact I.
      - injection B as <-. exact I.
      - destruct (bev b) as [w|] eqn:U; cbn [bbind] in B; [|discriminate]. injection B as <-. exact (IH C _ eq_refl).
      - destruct (bev b) as [w|] eqn:U; cbn [bbind] in B; [|discriminate]. injection B as <-. split; [exact (IH C _ eq_refl)|exact I].
      - destruct (bev b) as [w|] eqn:U; cbn [bbind] in B; [|discriminate]. specialize (IH C _ eq_refl).
        destruct w; try discriminate; injection B as <-; [exact I|split; [exact IH|exact I]|exact IH].
      - destruct (bev b) as [w|] eqn:U; cbn [bbind] in B; [|discriminate]. specialize (IH C _ eq_refl).
        destruct w; try discriminate; injection B as <-; [exact I|exact IH].
      - apply andb_true_iff in C as [C1 C2].
        destruct (bev b) as [w|] eqn:U; cbn [bbind] in B; [|discriminate]. specialize (IH C1 _ eq_refl).
        destruct w; try discriminate; [exact (IHd C2 _ B)|]. injection B as <-. exact IH.
      - apply andb_true_iff in C as [C1 C2].
        match type of B with bbind ?r _ = _ => destruct r as [vs|] eqn:G; cbn [bbind] in B; [|discriminate] end. injection B as <-.
        apply fields_eval in G. apply tidied_node. split; [|eapply node_tidy_ok; eauto].
        clear C1. induction G as [|f v fs vs G1 G2 IHg]; [constructor|]. apply Forall_cons_iff in IH as [IH1 IH2]. cbn [forallb] in C2.
        apply andb_true_iff in C2 as [C2 C2']. constructor; auto.
      - destruct (bev b) as [w|] eqn:U; cbn [bbind] in B; [|discriminate]. injection B as <-. exact (IH C _ eq_refl).
      - apply andb_true_iff in C as [C1 C2].
        destruct (bev a) as [w|] eqn:U; cbn [bbind] in B; [|discriminate].
        destruct (bev b) as [w'|] eqn:U'; cbn [bbind] in B; [|discriminate]. injection B as <-. split; auto.
      - destruct (bev b) as [w|] eqn:U; cbn [bbind] in B; [|discriminate]. specialize (IH C _ eq_refl).
        destruct w; try discriminate. injection B as <-. apply IH.
      - destruct (bev b) as [w|] eqn:U; cbn [bbind] in B; [|discriminate]. specialize (IH C _ eq_refl).
        destruct w; try discriminate. injection B as <-. apply IH.
      - destruct (bev b) as [w|] eqn:U; cbn [bbind] in B; [|discriminate]. specialize (IH C _ eq_refl).
        destruct (get_field f w) as [u|] eqn:U'; [|discriminate]. injection B as <-. eapply tidied_field; eauto.
      - destruct (bev b) as [w|] eqn:U; cbn [bbind] in B; [|discriminate].
        destruct (extent_of w); [|discriminate]. injection B as <-. exact I.
      - destruct (bev b) as [w|] eqn:U; cbn [bbind] in B; [|discriminate].
        destruct w; try discriminate; injection B as <-; exact I.
      - destruct (bev b) as [w|] eqn:U; cbn [bbind] in B; [|discriminate]. specialize (IH C _ eq_refl).
        destruct w as [| | | | | | |w| | | |]; try discriminate; [injection B as <-; exact I|]. destruct w; try discriminate. injection B as <-. apply IH.
      - destruct (bev b) as [w|] eqn:U; cbn [bbind] in B; [|discriminate]. specialize (IH C _ eq_refl).
        destruct w as [| | | | | | |w| | | |]; try discriminate; [injection B as <-; exact I|]. destruct w; try discriminate. injection B as <-. apply IH.
      - apply andb_true_iff in C as [C1 C2].
        destruct (bev s) as [w|] eqn:U; cbn [bbind] in B; [|discriminate].
        destruct (bev t) as [w'|] eqn:U'; cbn [bbind] in B; [|discriminate].
        destruct w as [| | | | | | | |l| | |]; try discriminate. destruct w'; try discriminate. injection B as <-.
        apply tidied_list. apply block_tidied. apply tidied_list. auto.
      - apply andb_true_iff in C as [C1 C2].
        destruct (bev s) as [w|] eqn:U; cbn [bbind] in B; [|discriminate].
        destruct (bev t) as [w'|] eqn:U'; cbn [bbind] in B; [|discriminate].
        destruct w as [| | | | | | | |l| | |]; try discriminate. destruct w'; try discriminate. injection B as <-.
        apply block_tidied. apply tidied_list. auto.
      - apply andb_true_iff in C as [C1 C2].
        destruct (bev s) as [w|] eqn:U; cbn [bbind] in B; [|discriminate].
        destruct (bev t) as [w'|] eqn:U'; cbn [bbind] in B; [|discriminate]. specialize (IHu C2 _ eq_refl).
        destruct w as [x| | | | | | | | | | |]; try discriminate. destruct w' as [| | | | | | | | |w1 w2| |]; try discriminate.
        destruct w1 as [| | | | | | | |l| | |]; try discriminate. destruct w2 as [| | | | | | | | |w3 w4| |]; try discriminate. destruct w3 as [| |nn| | | | | | | | |]; try discriminate.
        injection B as <-. destruct IHu as [IHl _]. pose proof IHl as IHl'. apply tidied_list in IHl'.
        unfold paren_or_tuple. destruct l as [|v [|w l]]; [|destruct nn|]; cbn [CoverSpec.tidied]; apply other_node; try (vm_compute; reflexivity); fields.
        now apply Forall_cons_iff in IHl'.
      - destruct (bev b) as [w|] eqn:U; cbn [bbind] in B; [|discriminate]. destruct w as [| | | |n| | | | | | |]; try discriminate. injection B as <-.
        unfold convert_number. destruct n as [rd x y f ee ss u]. cbn. destruct rd, f, ee, ss; cbn; intuition discriminate.
    Qed.
  End Build.

  (** * Derivations *)

  Definition der_t (x : g) (e : env) (p q : point) (v : val) : Prop := valid p -> etidied e -> gtidy x = true -> tidied v.
  Definition ders_t (steps : list (pat * g)) (e : env) (p : point) (e' : env) (q : point) : Prop :=
    valid p -> etidied e -> forallb (fun s => gtidy (snd s)) steps = true -> etidied e'.
  Definition items_t (so : option g) (f : g) (e : env) (p q : point) (vs : list val) : Prop := valid p -> etidied e -> gtidy f = true -> Forall tidied vs.
  Definition etree_t (c : car val) : Prop := valid (c_spt c) -> tidied (c_val c).

  Lemma gnt_t n p q v : der_t (GNT n) [] p q v -> valid p -> tidied v.
  Proof. intros H V. apply H; [auto|constructor|reflexivity]. Qed.

  (** An expression has the extent of what it attributes. *)
  Lemma attributed_t x y attrs k k' fs : tidied attrs -> tidied (VNode k' (VExt y :: fs)) -> fst x = fst y -> snd x = snd y ->
    tidied (VNode "Attributed<Expression>" [VExt x; attrs; VVar "Expression" k (VNode k' (VExt y :: fs)); VList []]).
  Proof.
    intros A V E1 E2. apply tidied_node. split; [fields|]. intros _ z t G _ _ _ L. right. exists y. cbn in G. injection G as <-. split.
    - cbn. apply in_app_iff. right. now left.
    - unfold lies_in in *. lia.
  Qed.

  Lemma ex_same p q q' x y : valid p -> valid q -> valid q' -> pos p <= pos q -> pos p <= pos q' -> ex toks p q = BOk x -> ex toks p q' = BOk y -> fst x = fst y.
  Proof.
    intros V1 V2 V3 L1 L2 X Y. destruct (ex_ok _ WF _ _ V1 V2 L1) as (x' & X' & F & _). rewrite X in X'. injection X' as <-.
    destruct (ex_ok _ WF _ _ V1 V3 L2) as (y' & Y' & F' & _). rewrite Y in Y'. injection Y' as <-. congruence.
  Qed.

  (** The words of operators. *)
  Definition infix_chk (x : g) : bool :=
    match x with
    | GSeq [(PVar x, y)] (BVariant _ t (BVar x')) =>
        String.eqb x x' && (String.eqb t "RangeInclusive" || String.eqb t "RangeExclusive" || ksub (tread y) (Some (own_words "Binary")))
    | _ => false
    end.

  Lemma infix_words e p q v : der toks (GNT N_operator_infix) e p q v -> valid p ->
    exists en t w, v = VVar en t w /\ (t = "RangeInclusive" \/ t = "RangeExclusive" \/ reads (own_words "Binary") p q).
  Proof.
    intros D V. assert (match table N_operator_infix with GAlt gs => forallb infix_chk gs | _ => false end = true) as C by (vm_compute; reflexivity).
    apply inv_nt in D. destruct (table N_operator_infix) as [| | | |gs| | | | | | | | | | | | | | |] eqn:T; try discriminate. apply inv_alt in D as (x & J & D).
    rewrite forallb_forall in C. specialize (C _ J). destruct x as [| | |steps b| | | | | | | | | | | | | | | |]; try discriminate.
    destruct steps as [|[pt y] steps]; [discriminate|]. destruct pt as [x|]; [|discriminate]. destruct steps; [|discriminate].
    destruct b as [| | | | | | | | | | | |en t b| | | | | | | | | | | |]; try discriminate. destruct b as [x'| | | | | | | | | | | | | | | | | | | | | | | |]; try discriminate.
    cbn [infix_chk] in C. apply andb_true_iff in C as [C1 C]. apply String.eqb_eq in C1. subst x'. apply inv_wrap in D as (w & -> & D).
    exists en, t, w. split; [auto|]. apply orb_true_iff in C as [C|C]; [apply orb_true_iff in C as [C|C]; apply String.eqb_eq in C; auto|].
    right. right. apply ksub_ok in C as (W & R & J'). eapply reads_incl; [exact J'|]. exact (der_reads _ WF _ _ _ _ _ _ D V R).
  Qed.

  Definition postfix_ok (p q : point) (v : val) : Prop :=
    exists en t w, v = VVar en t w /\ ((t = "Try" /\ reads (own_words "TryOperator") p q) \/ t = "Call" \/
      (In t ["FieldAccess"; "Slice"; "AsType"; "Ascription"] /\ holds (own_words t) p q (extents w))).

  Lemma inv_variant steps en t b e p q v : der toks (GSeq steps (BVariant en t b)) e p q v -> exists w, v = VVar en t w.
  Proof.
    intros D. apply inv_seq in D as (e' & D & B). cbn [beval] in B. destruct (beval toks q e' b) as [w|]; cbn [bbind] in B; [|discriminate]. injection B as <-. eauto.
  Qed.

  Lemma wrapped_ok n en t steps b e p q v : der toks (GNT n) e p q v -> valid p -> table n = GSeq steps (BVariant en t b) -> ksub (tcov (table n)) (Some (own_words t)) = true ->
    In t ["FieldAccess"; "Slice"; "AsType"; "Ascription"] -> postfix_ok p q v.
  Proof.
    intros D V T K J. apply inv_nt in D. apply ksub_ok in K as (W & C & K). destruct (proj1 (cover_all toks WF) _ _ _ _ _ D V) as [H _]. specialize (H _ C).
    rewrite T in D. apply inv_variant in D as (w & ->). exists en, t, w. split; [auto|]. right. right. split; [auto|]. eapply holds_incl; [exact K|apply incl_refl|exact H].
  Qed.

  Lemma try_ok e p q v : der toks (GSeq [(PVar "x", t_question_mark)] (BVariant "OperatorPostfix" "Try" (BVar "x"))) e p q v -> valid p -> postfix_ok p q v.
  Proof.
    intros D V. apply inv_wrap in D as (w & -> & D). eexists _, _, _. split; [reflexivity|]. left. split; [auto|].
    eapply reads_incl; [|eapply (der_reads _ WF); [exact D|exact V|vm_compute; reflexivity]]. intros k [<-|[]]. vm_compute. tauto.
  Qed.

  Lemma postfix_words e p q v : der toks (GNT N_operator_postfix) e p q v -> valid p -> postfix_ok p q v.
  Proof.
    intros D V. apply inv_nt in D. cbn [table] in D. apply inv_alt in D as (x & J & D).
    destruct J as [<-|[<-|[<-|[<-|[<-|[<-|[]]]]]]].
    - eapply wrapped_ok; [exact D|exact V|reflexivity|vm_compute; reflexivity|cbn; tauto].
    - eapply wrapped_ok; [exact D|exact V|reflexivity|vm_compute; reflexivity|cbn; tauto].
    - apply inv_nt in D. cbn [table] in D. apply inv_variant in D as (w & ->). eexists _, _, _. split; [reflexivity|auto].
    - eapply wrapped_ok; [exact D|exact V|reflexivity|vm_compute; reflexivity|cbn; tauto].
    - eapply wrapped_ok; [exact D|exact V|reflexivity|vm_compute; reflexivity|cbn; tauto].
    - now apply try_ok in D.
  Qed.

  Lemma postfix_limited_words e p q v : der toks (GNT N_operator_postfix_limited) e p q v -> valid p -> postfix_ok p q v.
  Proof.
    intros D V. apply inv_nt in D. cbn [table] in D. apply inv_alt in D as (x & J & D). destruct J as [<-|[<-|[]]].
    - eapply wrapped_ok; [exact D|exact V|reflexivity|vm_compute; reflexivity|cbn; tauto].
    - now apply try_ok in D.
  Qed.

  Lemma postfix_t c e op c' : etree toks c -> valid (c_spt c) -> valid e -> pos (c_ept c) <= pos e -> tidied (c_val c) -> tidied op -> postfix_ok (c_ept c) e op ->
    apply_one toks [c] (OpPostfix op) (c_ept c) e = AOk [c'] -> tidied (c_val c').
  Proof.
    intros T V Ve Le Mc Mo (en & t & w & -> & K) A. destruct (etree_mono _ WF _ T V) as [V1 L1]. cbn [apply_one] in A. cbn [CoverSpec.tidied] in Mo.
    pose proof (proj2 (proj2 (proj2 (proj2 (cover_all toks WF)))) _ T V) as Hc.
    assert (forall k f (x : extent) W l, is_tidy k = true -> holds W (c_ept c) e l -> incl W (own_words k) -> ex toks (c_spt c) e = BOk x -> Forall tidied (VExt x :: f) ->
              get_field "extent" (VNode k (VExt x :: f)) = Some (VExt x) -> incl (extents (c_val c) ++ l) (inner_extents k (VExt x :: f)) -> tidied (VNode k (VExt x :: f))) as N.
    { intros k f x W l _ H J X F G J'. apply tidied_node. split; [auto|]. intros _ z t' G' I' S' C' L'. rewrite G in G'. injection G' as <-.
      eapply (holds_accounts (own_words k)); [exact V|exact Ve|lia|exact X| |apply incl_refl|auto|auto|auto|auto].
      eapply holds_incl; [apply incl_refl|exact J'|]. apply (holds_app _ _ _ (c_ept c)).
      - eapply holds_incl; [|apply incl_appl, incl_refl|exact Hc]. intros z [].
      - eapply holds_incl; [exact J|apply incl_appr, incl_refl|exact H]. }
    destruct K as [[-> R]|[->|[J H]]].
    - cbn [String.eqb Ascii.eqb Bool.eqb] in A. apply apply_postfix_val in A as (x & X & ->). unfold into_attributed, expr_node. apply attributed_t; try exact I; auto.
      eapply (N _ _ _ _ []); [reflexivity|eapply reads_holds; exact R|apply incl_refl|exact X|fields|reflexivity|]. cbn. rewrite !app_nil_r. apply incl_refl.
    - cbn [String.eqb Ascii.eqb Bool.eqb] in A. apply apply_postfix_val in A as (x & X & ->). unfold into_attributed, expr_node. apply attributed_t; try exact I; auto.
      apply other_node; [vm_compute; reflexivity|fields].
    - cbn [In] in J. destruct J as [<-|[<-|[<-|[<-|[]]]]]; cbn [String.eqb Ascii.eqb Bool.eqb] in A; apply apply_postfix_val in A as (x & X & ->);
        unfold into_attributed, expr_node; (apply attributed_t; [exact I| |reflexivity|reflexivity]);
        (eapply N; [reflexivity|exact H|apply incl_refl|exact X|fields|reflexivity|]); cbn; rewrite !app_nil_r; apply incl_refl.
  Qed.

  Theorem tidy_all :
    (forall x e p q v, der toks x e p q v -> der_t x e p q v) /\
    (forall steps e p e' q, ders toks steps e p e' q -> ders_t steps e p e' q) /\
    (forall so f e p q vs, items toks so f e p q vs -> items_t so f e p q vs) /\
    (forall so e p q, between toks so e p q -> True) /\
    (forall c, etree toks c -> etree_t c).
  Proof.
    apply (der_all toks der_t ders_t items_t (fun so e p q => True) etree_t); auto.
    - intros m err e p q v pm N K V E C. destruct m as [k|].
      + destruct (tok_ext _ WF _ _ _ _ _ _ V N K) as (x & -> & _); exact I.
      + destruct (tk_number _ _ _ _ _ _ V K) as (n & -> & _); exact I.
    - intros n e p q v D IH V E C. apply IH; [auto|constructor|apply gtidy_table].
    - intros e p V E C. exact I.
    - intros steps b e e' p q v D IH B V E C. cbn [gtidy] in C. apply andb_true_iff in C as [C1 C2].
      eapply btidy_ok; [exact V|exact (proj1 (proj2 (cover_all toks WF)) _ _ _ _ _ D V)|exact (IH V E C2)|exact C1|exact B].
    - intros gs x e p q v J D IH V E C. cbn [gtidy] in C. rewrite forallb_forall in C. auto.
    - intros x e p V E C. exact I.
    - intros x e p q l D IH V E C. apply tidied_list. exact (IH V E C).
    - intros app sep f e p q l vs n b B D IH Ch V E C. cbn [gtidy] in C. apply andb_true_iff in C as [C C3]. apply andb_true_iff in C as [C1 C2].
      unfold vtailed. split; [|split; exact I]. apply tidied_list. apply Forall_app. split; [|exact (IH V E C3)].
      apply tidied_list. eapply (btidy_ok [] e p p V); [reflexivity|exact E|exact C1|exact B].
    - intros sep f e p q vs n b D IH NE Ch V E C. cbn [gtidy] in C. apply andb_true_iff in C as [C1 C2]. split; [|split; exact I]. apply tidied_list. exact (IH V E C2).
    - intros sep f e p p1 q vs Bt _ D IH Ch V E C. cbn [gtidy] in C. apply andb_true_iff in C as [C1 C2]. destruct (between_mono _ WF _ _ _ _ Bt V) as [V1 _].
      apply tidied_list. exact (IH V1 E C2).
    - intros sep f e p V E C. exact I.
    - intros sep f e p q vs n b D IH Ch V E C. cbn [gtidy] in C. apply andb_true_iff in C as [C1 C2]. split; [|split; exact I]. apply tidied_list. exact (IH V E C2).
    - intros o c e p q v pm S K V E C. unfold nested in K. destruct (ex toks p _) as [x|]; [|discriminate]. injection K as <- <-. exact I.
    - intros x e p q v r D IH X V E C. exact I.
    - intros x e p q v D IH V E C. exact I.
    - intros a b e p q v D IH V E C. cbn [gtidy] in C. apply andb_true_iff in C as [C1 C2]. auto.
    - intros a b e p q v D IH V E C. cbn [gtidy] in C. apply andb_true_iff in C as [C1 C2]. auto.
    - intros stmt e c T IH V E C. exact (IH V).
    - intros e p V E C. exact E.
    - intros pt x steps e p q v e1 e' r D IH B DS IHs V E C. cbn [forallb snd] in C. apply andb_true_iff in C as [C1 C2].
      destruct (der_mono _ WF _ _ _ _ _ D V) as [V1 _]. apply (IHs V1); [eapply bind_tidied; [|exact E|exact B]; auto|auto].
    - intros so f e p q Vq L _ _ V E C. constructor.
    - intros so f e p p1 p2 q v vs D IH Bt _ DI IHi V E C. destruct (der_mono _ WF _ _ _ _ _ D V) as [V1 _]. destruct (between_mono _ WF _ _ _ _ Bt V1) as [V2 _].
      constructor; auto.
    - (* an atom *) intros p q en v D IH L V. cbn [c_spt c_val] in *. exact (gnt_t _ _ _ _ IH V).
    - (* a prefix operator *) intros en op s c c' res D IH L T IHt A E1 E2 V. rewrite E1 in V.
      destruct (der_mono _ WF _ _ _ _ _ D V) as [V1 L1]. destruct (etree_mono _ WF _ T V1) as [V2 L2]. pose proof (IHt V1) as Mc. pose proof (gnt_t _ _ _ _ IH V) as Mo. cbn [CoverSpec.tidied] in Mo.
      apply inv_prefix in D as (m & x & l & w & -> & X & _).
      apply tidied_node in Mo as [Mo _]. inversion Mo as [|? ? _ Mo1]; subst. inversion Mo1 as [|? ? Ml Mo2]; subst. inversion Mo2 as [|? ? Mq _]; subst.
      destruct w as [| | | | | | | | | | |en' k w]; cbn [apply_one] in A; try discriminate. cbn [CoverSpec.tidied] in Mq.
      repeat match type of A with (if ?b then _ else _) = _ => destruct b end; unfold apply_maybe_prefix in A;
        apply apply_prefix_val in A as (y & Y & ->); unfold expr_node;
        (apply attributed_t; [exact Ml| |exact (ex_same _ _ _ _ _ V V1 V2 ltac:(lia) ltac:(lia) X Y)|reflexivity]);
        (apply other_node; [vm_compute; reflexivity|fields]).
    - intros en op s e c' D IH L A E1 E2 V. rewrite E1 in V. pose proof (gnt_t _ _ _ _ IH V) as Mo. cbn [CoverSpec.tidied] in Mo.
      apply inv_prefix in D as (m & x & l & w & -> & X & _).
      apply tidied_node in Mo as [Mo _]. inversion Mo as [|? ? _ Mo1]; subst. inversion Mo1 as [|? ? Ml Mo2]; subst. inversion Mo2 as [|? ? Mq _]; subst.
      destruct w as [| | | | | | | | | | |en' k w]; cbn [apply_one] in A; try discriminate. cbn [CoverSpec.tidied] in Mq.
      repeat match type of A with (if ?b then _ else _) = _ => destruct b; [try discriminate|] end; try discriminate;
        unfold apply_maybe_prefix in A; rewrite X in A; cbn [a_of_b abind] in A; injection A as <-; cbn [c_val];
        unfold expr_node; (apply attributed_t; [exact Ml| |reflexivity|reflexivity]); (apply other_node; [vm_compute; reflexivity|fields]).
    - (* an infix operator *) intros en op l r c' Tl IHl Tr IHr D IH L A E1 E2 V. rewrite E1 in V.
      pose proof (IHl V) as Ml. destruct (etree_mono _ WF _ Tl V) as [V1 L1]. destruct (der_mono _ WF _ _ _ _ _ D V1) as [V2 L2]. pose proof (IHr V2) as Mr.
      destruct (etree_mono _ WF _ Tr V2) as [V3 L3]. pose proof (gnt_t _ _ _ _ IH V1) as Mo. cbn [CoverSpec.tidied] in Mo.
      apply inv_infix in D. destruct (infix_words _ _ _ _ D V1) as (en' & k & w & -> & K). cbn [apply_one] in A. cbn [CoverSpec.tidied] in Mo.
      destruct (String.eqb k "RangeInclusive") eqn:K1; [|destruct (String.eqb k "RangeExclusive") eqn:K2].
      + unfold apply_maybe_infix in A; cbn [length Nat.leb] in A; apply apply_infix_val in A as (x & X & ->); unfold into_attributed, expr_node;
          (apply attributed_t; [exact I| |reflexivity|reflexivity]); apply other_node; [vm_compute; reflexivity|fields].
      + unfold apply_maybe_infix in A; cbn [length Nat.leb] in A; apply apply_infix_val in A as (x & X & ->); unfold into_attributed, expr_node;
          (apply attributed_t; [exact I| |reflexivity|reflexivity]); apply other_node; [vm_compute; reflexivity|fields].
      + destruct K as [->|[->|K]]; try discriminate. apply apply_infix_val in A as (x & X & ->); unfold into_attributed, expr_node;
          (apply attributed_t; [exact I| |reflexivity|reflexivity]). apply tidied_node. split; [fields|].
        intros _ z t G It St Ct Lt. cbn in G. injection G as <-.
        eapply (holds_accounts (own_words "Binary")); [exact V|exact V3|lia|exact X| |apply incl_refl|auto|auto|auto|auto].
        pose proof (proj2 (proj2 (proj2 (proj2 (cover_all toks WF))))) as CA.
        apply (holds_app _ _ _ (c_ept l)); [|apply (holds_app _ _ _ (c_spt r))].
        * eapply holds_incl; [|  |exact (CA _ Tl V)]; [intros u []|]. cbn. apply incl_appl, incl_refl.
        * apply reads_holds. exact K.
        * eapply holds_incl; [|  |exact (CA _ Tr V2)]; [intros u []|]. cbn. apply incl_appr, incl_appl, incl_refl.
    - intros en op l e c' Tl IHl D IH L A E1 E2 V. rewrite E1 in V. pose proof (IHl V) as Ml. destruct (etree_mono _ WF _ Tl V) as [V1 L1].
      pose proof (gnt_t _ _ _ _ IH V1) as Mo. cbn [CoverSpec.tidied] in Mo. destruct op as [| | | | | | | | | | |en' k w]; cbn [apply_one] in A; try discriminate. cbn [CoverSpec.tidied] in Mo.
      repeat match type of A with (if ?b then _ else _) = _ => destruct b; [try discriminate|] end; try discriminate;
        unfold apply_maybe_infix in A; cbn [length Nat.leb pop_expression abind] in A;
        (destruct (ex toks (c_spt l) e) as [y|]; cbn [a_of_b abind] in A; [|discriminate]); injection A as <-; cbn [c_val];
        unfold into_attributed, expr_node; (apply attributed_t; [exact I| |reflexivity|reflexivity]); (apply other_node; [vm_compute; reflexivity|fields]).
    - (* a postfix operator *) intros en op c e c' T IHt D IH L A E1 E2 V. rewrite E1 in V. destruct (etree_mono _ WF _ T V) as [V1 L1].
      destruct (der_mono _ WF _ _ _ _ _ D V1) as [V2 L2]. pose proof (gnt_t _ _ _ _ IH V1) as Mo. cbn [CoverSpec.tidied] in Mo. apply inv_postfix in D.
      eapply postfix_t; [exact T|exact V|exact V2|lia|exact (IHt V)|exact Mo|eapply postfix_words; eauto|exact A].
    - intros op c e c' T IHt D IH L A E1 E2 V. rewrite E1 in V. destruct (etree_mono _ WF _ T V) as [V1 L1].
      destruct (der_mono _ WF _ _ _ _ _ D V1) as [V2 L2].
      eapply postfix_t; [exact T|exact V|exact V2|lia|exact (IHt V)|exact (gnt_t _ _ _ _ IH V1)|eapply postfix_limited_words; eauto|exact A].
  Qed.
End CoverTidy.
