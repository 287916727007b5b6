(** Nodes that hold lists drop no token but behind the last element of a list. *)

From Coq Require Import String List NArith Arith Bool Lia.
From Verif Require First.
From Verif Require Import Base Peresil Token Schema Value Nt Grammar Points Table Static Typing FileToks Split SpanSpec MarkSpec LandSpec Deriv DerivMono.
From Verif Require Import Marks MarksOk Spans SpansOk SpansDer Expect Honest CoverSpec Cover CoverOk CoverTidy DropSpec Drops DropsOk.
Import ListNotations.
Local Open Scope string_scope.
Local Open Scope list_scope.
Local Open Scope nat_scope.

Section DropsNeat.
  Variable toks : list token.
  Hypothesis WF : wf_toks toks.
  Hypothesis NUM : forall i n, nth_error toks i = Some (TkNumber n) -> num_ord n.
  Notation valid := (valid toks).
  Notation sb := (sb toks).
  Notation holds := (holds toks).
  Notation reads := (CoverOk.reads toks).
  Notation up := (up toks).
  Notation eup := (eup toks).

  (** * Variables *)

  Lemma vjoin_some a b l : vjoin a b = Some l -> exists x y, a = Some x /\ b = Some y /\ l = x ++ y.
  Proof. destruct a, b; try discriminate. intros [= <-]. eauto. Qed.

  Definition from (e : env) (l : list string) (v : val) : Prop :=
    forall z, In z (extents v) -> exists x w, In x l /\ assoc x e = Some w /\ In z (extents w).

  Lemma from_incl e l v w : incl (extents w) (extents v) -> from e l v -> from e l w.
  Proof. intros I H z Z. auto. Qed.
  Lemma from_l e l l' v : from e l v -> from e (l ++ l') v.
  Proof. intros H z Z. destruct (H z Z) as (x & w & I & A & Z'). exists x, w. split; [apply in_app_iff; auto|auto]. Qed.
  Lemma from_r e l l' v : from e l v -> from e (l' ++ l) v.
  Proof. intros H z Z. destruct (H z Z) as (x & w & I & A & Z'). exists x, w. split; [apply in_app_iff; auto|auto]. Qed.

  Lemma bvars_ok pt e b : forall l v, bvars b = Some l -> beval toks pt e b = BOk v -> from e l v.
  Proof.
    induction b as [y|y|y z| | | |b IH|b IH|b IH|b IH|b d IH IHd|k fs IH|en vn b IH|a b IHa IHb|b IH|b IH
                 |f b IH|b IH|b IH|b IH|b IH|s t IHs IHu|s t IHs IHu|s t IHs IHu|b IH] using bexp_ind'; intros l v C B; cbn [bvars] in C; try discriminate; cbn [beval] in B.
    - injection C as <-. destruct (assoc y e) as [w|] eqn:A; [|discriminate]. injection B as <-. intros z Z. exists y, w. split; [now left|auto].
    - injection B as <-. intros z [].
    - injection B as <-. intros z [].
    - injection B as <-. intros z [].
    - destruct (beval toks pt e b) as [w|] eqn:U; cbn [bbind] in B; [|discriminate]. injection B as <-. exact (IH _ _ C eq_refl).
    - destruct (beval toks pt e b) as [w|] eqn:U; cbn [bbind] in B; [|discriminate]. injection B as <-. eapply from_incl; [|exact (IH _ _ C eq_refl)]. cbn. rewrite app_nil_r. apply incl_refl.
    - destruct (beval toks pt e b) as [w|] eqn:U; cbn [bbind] in B; [|discriminate]. specialize (IH _ _ C eq_refl).
      destruct w; try discriminate; injection B as <-; [intros z []| |exact IH]. eapply from_incl; [|exact IH]. cbn. rewrite app_nil_r. apply incl_refl.
    - destruct (beval toks pt e b) as [w|] eqn:U; cbn [bbind] in B; [|discriminate]. specialize (IH _ _ C eq_refl).
      destruct w; try discriminate; injection B as <-; [intros z []|exact IH].
    - apply vjoin_some in C as (x & y & C1 & C2 & ->).
      destruct (beval toks pt e b) as [w|] eqn:U; cbn [bbind] in B; [|discriminate]. specialize (IH _ _ C1 eq_refl).
      destruct w; try discriminate; [apply from_r; exact (IHd _ _ C2 B)|]. injection B as <-. apply from_l. exact IH.
    - destruct (beval toks pt e b) as [w|] eqn:U; cbn [bbind] in B; [|discriminate]. injection B as <-. exact (IH _ _ C eq_refl).
    - apply vjoin_some in C as (x & y & C1 & C2 & ->).
      destruct (beval toks pt e a) as [w|] eqn:U; cbn [bbind] in B; [|discriminate].
      destruct (beval toks pt e b) as [w'|] eqn:U'; cbn [bbind] in B; [|discriminate]. injection B as <-.
      intros z Z. cbn [extents] in Z. apply in_app_iff in Z as [Z|Z].
      + exact (from_l _ _ y _ (IHa _ _ C1 eq_refl) z Z).
      + exact (from_r _ _ x _ (IHb _ _ C2 eq_refl) z Z).
    - destruct (beval toks pt e b) as [w|] eqn:U; cbn [bbind] in B; [|discriminate]. specialize (IH _ _ C eq_refl).
      destruct w; try discriminate. injection B as <-. eapply from_incl; [|exact IH]. cbn. apply incl_appl, incl_refl.
    - destruct (beval toks pt e b) as [w|] eqn:U; cbn [bbind] in B; [|discriminate]. specialize (IH _ _ C eq_refl).
      destruct w; try discriminate. injection B as <-. eapply from_incl; [|exact IH]. cbn. apply incl_appr, incl_refl.
    - destruct (beval toks pt e b) as [w|] eqn:U; cbn [bbind] in B; [|discriminate]. specialize (IH _ _ C eq_refl).
      destruct (get_field f w) as [u|] eqn:U'; [|discriminate]. injection B as <-. eapply from_incl; [|exact IH]. eapply get_field_incl; eauto.
    - destruct (beval toks pt e b) as [w|] eqn:U; cbn [bbind] in B; [|discriminate]. specialize (IH _ _ C eq_refl).
      destruct (extent_of w) as [x|] eqn:X; [|discriminate]. injection B as <-. eapply from_incl; [|exact IH]. apply extent_of_in in X. intros z [<-|[]]. exact X.
    - destruct (beval toks pt e b) as [w|] eqn:U; cbn [bbind] in B; [|discriminate].
      destruct w; try discriminate; injection B as <-; intros z [].
    - destruct (beval toks pt e b) as [w|] eqn:U; cbn [bbind] in B; [|discriminate]. specialize (IH _ _ C eq_refl).
      destruct w as [| | | | | | |w| | | |]; try discriminate; [injection B as <-; intros z []|]. destruct w; try discriminate. injection B as <-.
      eapply from_incl; [|exact IH]. cbn. apply incl_appl, incl_refl.
    - destruct (beval toks pt e b) as [w|] eqn:U; cbn [bbind] in B; [|discriminate]. specialize (IH _ _ C eq_refl).
      destruct w as [| | | | | | |w| | | |]; try discriminate; [injection B as <-; intros z []|]. destruct w; try discriminate. injection B as <-.
      eapply from_incl; [|exact IH]. cbn. apply incl_appr, incl_refl.
    - apply vjoin_some in C as (x & y & C1 & C2 & ->).
      destruct (beval toks pt e s) as [w|] eqn:U; cbn [bbind] in B; [|discriminate].
      destruct (beval toks pt e t) as [w'|] eqn:U'; cbn [bbind] in B; [|discriminate].
      destruct w as [| | | | | | | |l| | |]; try discriminate. destruct w'; try discriminate. injection B as <-.
      apply from_l. eapply from_incl; [|exact (IHs _ _ C1 eq_refl)]. destruct (block_cases l b) as [E|(en & l' & v & L & E)]; rewrite E; cbn [fst extents]; [apply incl_refl|].
      subst l. rewrite flat_map_app. apply incl_appl, incl_refl.
    - apply vjoin_some in C as (x & y & C1 & C2 & ->).
      destruct (beval toks pt e s) as [w|] eqn:U; cbn [bbind] in B; [|discriminate].
      destruct (beval toks pt e t) as [w'|] eqn:U'; cbn [bbind] in B; [|discriminate].
      destruct w as [| | | | | | | |l| | |]; try discriminate. destruct w'; try discriminate. injection B as <-.
      apply from_l. eapply from_incl; [|exact (IHs _ _ C1 eq_refl)]. destruct (block_cases l b) as [E|(en & l' & v & L & E)]; rewrite E; cbn [snd extents]; [intros z []|].
      subst l. rewrite flat_map_app. cbn. rewrite app_nil_r. apply incl_appr, incl_refl.
  Qed.

  (** * What is kept *)

  Lemma gkeeps_ok y e p q v : der toks y e p q v -> Forall (keptok e (extents v)) (gkeeps y).
  Proof.
    assert (forall app sep f e p q v, der toks (GTailed app sep f) e p q v -> exists a b, v = VPair a b /\ extents b = [] /\ Forall (keptok e (extents a)) (keeps app)) as T.
    { intros app sep f e0 p0 q0 v0 D. inversion D; subst. match goal with B : beval _ _ _ app = _ |- _ => rename B into B0 end. unfold vtailed. eexists _, _. split; [reflexivity|]. split; [reflexivity|].
      eapply keptoks_incl; [|eapply keeps_ok; exact B0]. cbn [extents]. rewrite flat_map_app. apply incl_appl, incl_refl. }
    destruct y; cbn [gkeeps]; try (constructor; fail); intros D.
    - destruct steps as [|[[x|] y] [|]]; try (constructor; fail). 2: destruct y; constructor. destruct y; try (constructor; fail). destruct b; try (constructor; fail). destruct b; try (constructor; fail).
      destruct (String.eqb x x0) eqn:X; [|constructor]. apply String.eqb_eq in X. subst x0. apply inv_seq in D as (e' & D & B). apply inv_steps in D as (r & w & e1 & D & Bd & D').
      apply inv_nil in D' as [-> ->]. cbn [bind_pat] in Bd. injection Bd as <-. cbn [beval assoc] in B. rewrite String.eqb_refl in B. cbn [bbind] in B.
      destruct (T _ _ _ _ _ _ _ D) as (a & c & -> & _ & K). injection B as <-. exact K.
    - destruct (T _ _ _ _ _ _ _ D) as (a & c & -> & Z & K). cbn [extents]. rewrite Z, app_nil_r. exact K.
  Qed.

  Lemma step_kept ks l pt y e p q v e1 : Forall (keptok e1 l) ks -> der toks y e p q v -> valid p -> bind_pat pt v e = Some e1 ->
    keeps_pat ks (lists y) [] pt = true -> incl (extents v) l.
  Proof.
    intros K D V B H. eapply (keeps_pat_ok e1 ks l e1); [exact K|reflexivity|exact H| |].
    - exact (proj2 (proj1 (cover_all toks WF) _ _ _ _ _ D V)).
    - eapply binds_bind; [exact B|auto].
  Qed.

  Lemma steps_keep_ok ks l steps : forall e p e' q, ders toks steps e p e' q -> valid p -> Forall (keptok e' l) ks -> Forall (keptok e l) (steps_keep ks steps).
  Proof.
    induction steps as [|[pt y] steps IH]; intros e p e' q D V K; cbn [steps_keep].
    - apply inv_nil in D as [-> _]. auto.
    - apply inv_steps in D as (r & v & e1 & D & B & D'). destruct (der_mono _ WF _ _ _ _ _ D V) as [Vr _]. specialize (IH _ _ _ _ D' Vr K). apply Forall_app. split.
      + rewrite Forall_forall in *. intros k I. apply filter_In in I as [I N]. apply negb_true_iff in N. specialize (IH _ I).
        destruct k as [x|x|x]; cbn [kept_var keptok] in *; intros w A; apply IH; (erewrite bind_other; [exact A|exact B|exact N]).
      + destruct (keeps_pat _ _ _ _) eqn:H; [|constructor]. eapply keptoks_incl; [|eapply gkeeps_ok; exact D]. exact (step_kept _ _ _ _ _ _ _ _ _ IH D V B H).
  Qed.

  Lemma step_words_ok ks l pt y e p q v e1 W : Forall (keptok e1 l) ks -> der toks y e p q v -> valid p -> bind_pat pt v e = Some e1 ->
    step_words ks pt y = Some W -> holds W p q l.
  Proof.
    intros K D V B H. unfold step_words in H. destruct (keeps_pat ks (lists y) [] pt) eqn:KP.
    - eapply holds_incl; [apply incl_refl| |exact (proj1 (proj1 (cover_all toks WF) _ _ _ _ _ D V) _ H)]. exact (step_kept _ _ _ _ _ _ _ _ _ K D V B KP).
    - apply reads_holds. eapply der_reads; eauto.
  Qed.

  Lemma bind_from pt : forall v e e1 x w, bind_pat pt v e = Some e1 -> assoc x e1 = Some w -> incl (extents w) (extents v) \/ assoc x e = Some w.
  Proof.
    induction pt as [y|a IHa b IHb]; intros v e e1 x w B A; cbn [bind_pat] in B.
    - injection B as <-. cbn [assoc] in A. destruct (String.eqb x y); [left|auto]. injection A as <-. apply incl_refl.
    - destruct v as [| | | | | | | | |v1 v2| |]; try discriminate. destruct (bind_pat a v1 e) as [e2|] eqn:E; [|discriminate]. cbn [extents].
      destruct (IHb _ _ _ _ _ B A) as [I|A']; [left; apply incl_appr, I|]. destruct (IHa _ _ _ _ _ E A') as [I|A2]; [left; apply incl_appl, I|auto].
  Qed.

  (** * Tails *)

  (** The point offers a token of the set. *)
  Definition offers (M : N) (m : point) : Prop := N.land M (First.offered toks m) <> 0%N.
  Lemma offers_sub M M' m : N.land M M' = M -> offers M m -> offers M' m.
  Proof. unfold offers. intros <- H E. apply H. now rewrite <- N.land_assoc, E, N.land_0_r. Qed.
  Lemma nsub_sub a b : nsub a b = true -> N.land a b = a.
  Proof. apply N.eqb_eq. Qed.
  Lemma nsub_l a b : N.land a (N.lor a b) = a.
  Proof. apply First.self_disjoint. Qed.
  Lemma nsub_r a b : N.land b (N.lor a b) = b.
  Proof. rewrite N.lor_comm. apply First.self_disjoint. Qed.
  Lemma nsub_trans a b c : N.land a b = a -> N.land b c = b -> N.land a c = a.
  Proof. intros <- H. now rewrite <- N.land_assoc, H. Qed.

  (** Words and parts up to [m] and from [n] on; what is dropped between begins with a
      token of the set. *)
  Definition parted (W : list tkind) (M : N) (p q : point) (l : list extent) (m n : point) : Prop :=
    valid m /\ valid n /\ pos p <= pos m /\ pos m <= pos n /\ pos n <= pos q /\ holds W p m l /\ holds W n q l /\ (n = m \/ offers M m).
  Definition tails (W : list tkind) (M : N) (p q : point) (v : val) : Prop := exists m n, parted W M p q (extents v) m n /\ hi_le (sb m) v.

  Lemma parted_incl W W' M M' p q l l' m n : incl W W' -> N.land M M' = M -> incl l l' -> parted W M p q l m n -> parted W' M' p q l' m n.
  Proof.
    intros I J K (Vm & Vn & L1 & L2 & L3 & H1 & H2 & O). repeat split; auto; try (eapply holds_incl; [exact I|exact K|assumption]).
    destruct O as [O|O]; [left; exact O|right; eapply offers_sub; eauto].
  Qed.
  Lemma tails_incl W W' M M' p q v : incl W W' -> N.land M M' = M -> tails W M p q v -> tails W' M' p q v.
  Proof. intros I J (m & n & H & U). exists m, n. split; [|auto]. eapply parted_incl; eauto. apply incl_refl. Qed.

  Lemma hi_incl n v w : incl (extents w) (extents v) -> hi_le n v -> hi_le n w.
  Proof. intros I. unfold hi_le. rewrite !Forall_forall. auto. Qed.
  Lemma hi_mono a b v : a <= b -> hi_le a v -> hi_le b v.
  Proof. intros L. apply Forall_impl. intros e. lia. Qed.

  Lemma der_up x e p q v : der toks x e p q v -> valid p -> eup p e -> up q v.
  Proof. intros D. exact (proj1 (up_der toks WF) _ _ _ _ _ D). Qed.

  Lemma hi_bound p e pt v e1 x w m : valid p -> valid m -> eup p e -> pos p <= pos m -> hi_le (sb m) v -> bind_pat pt v e = Some e1 -> assoc x e1 = Some w -> hi_le (sb m) w.
  Proof.
    intros Vp Vm E L H B A. destruct (bind_from _ _ _ _ _ _ B A) as [I|A']; [eapply hi_incl; eauto|].
    pose proof (sb_mono _ WF _ _ Vp Vm L). eapply hi_mono; [eassumption|]. apply (up_hi toks). eapply assoc_up; eauto.
  Qed.

  Definition dtail (x : g) (e : env) (p q : point) (v : val) : Prop := valid p -> eup p e -> forall W, ttail x = Some W -> tails W (tstart x) p q v.
  Definition stail (steps : list (pat * g)) (e : env) (p : point) (e' : env) (q : point) : Prop := valid p -> eup p e ->
    forall ks l vs W, Forall (keptok e' l) ks -> steps_tail ttail ks vs steps = Some W ->
      exists m n, parted W (steps_start tstart ks steps) p q l m n /\ forall x w, In x vs -> assoc x e' = Some w -> hi_le (sb m) w.
  Definition itail (so : option g) (f : g) (e : env) (p q : point) (vs : list val) : Prop := valid p -> eup p e -> forall W a,
    tcov f = Some a -> incl a W -> match so with None => True | Some s => tfip s = true /\ exists b, tread s = Some b /\ incl b W end -> tails W (First.firstg f) p q (VList vs).

  Lemma cov_tails x e p q v W : der toks x e p q v -> valid p -> eup p e -> tcov x = Some W -> forall M, tails W M p q v.
  Proof.
    intros D V E C M. destruct (der_mono _ WF _ _ _ _ _ D V) as [Vq L]. exists q, q. repeat split; auto.
    - exact (proj1 (proj1 (cover_all toks WF) _ _ _ _ _ D V) _ C).
    - now apply holds_nil.
    - apply (up_hi toks). eapply der_up; eauto.
  Qed.

  Lemma steps_words_ok steps : forall ks l e p e' q W, ders toks steps e p e' q -> valid p -> Forall (keptok e' l) ks -> steps_words ks steps = Some W -> holds W p q l.
  Proof.
    induction steps as [|[pt y] steps IH]; intros ks l e p e' q W D V K T; cbn [steps_words] in T.
    - apply inv_nil in D as [_ ->]. now apply holds_nil.
    - apply inv_steps in D as (r & v & e1 & D & B & D'). destruct (der_mono _ WF _ _ _ _ _ D V) as [Vr L]. apply kjoin_some in T as (a & b & A & T & I1 & I2).
      eapply holds_app; [eapply holds_incl; [exact I1|apply incl_refl|]; eapply step_words_ok; [eapply steps_keep_ok; eauto|exact D|exact V|exact B|exact A]|].
      eapply holds_incl; [exact I2|apply incl_refl|]. eapply IH; eauto.
  Qed.

  Lemma list_tail sep f W : (if tfip sep then kjoin (tread sep) (tcov f) else None) = Some W ->
    tfip sep = true /\ exists a b, tread sep = Some a /\ tcov f = Some b /\ incl a W /\ incl b W.
  Proof. destruct (tfip sep); [|discriminate]. intros H. apply kjoin_some in H. auto. Qed.

  Lemma tails_ext W p q v w : incl (extents v) (extents w) -> (forall m, valid m -> pos p <= pos m -> hi_le (sb m) v -> hi_le (sb m) w) -> forall M, tails W M p q v -> tails W M p q w.
  Proof.
    intros I1 I2 M (m & n & H & U). exists m, n. split; [eapply parted_incl; [apply incl_refl|apply N.land_diag|exact I1|exact H]|].
    destruct H as (Vm & _ & L & _). auto.
  Qed.

  Ltac start C := unfold tstart; cbn [startg]; rewrite C.

  Theorem tail_all :
    (forall x e p q v, der toks x e p q v -> dtail x e p q v) /\
    (forall steps e p e' q, ders toks steps e p e' q -> stail steps e p e' q) /\
    (forall so f e p q vs, items toks so f e p q vs -> itail so f e p q vs) /\
    (forall so e p q, between toks so e p q -> True) /\
    (forall c, etree toks c -> True).
  Proof.
    assert (forall x e p q v, der toks x e p q v -> (valid p -> eup p e -> tcov x = None -> forall W, ttail x = Some W -> tails W (tstart x) p q v) -> dtail x e p q v) as G.
    { intros x e p q v D H V E W T. destruct (tcov x) as [C|] eqn:X; [|eauto].
      assert (W = C) as -> by (destruct x; unfold ttail in T; cbn [tailg] in T; rewrite X in T; congruence). eapply cov_tails; eauto. }
    assert (forall e p q v, eup p e -> valid p -> extents v = [] -> p = q -> forall W M, tails W M p q v) as Z.
    { intros e p q v E V X -> W M. exists q, q. repeat split; auto; try (now apply holds_nil). unfold hi_le. rewrite X. constructor. }
    apply (der_all toks dtail stail itail (fun so e p q => True) (fun c => True)); auto.
    - intros m err e p q v pm N K. apply G; [econstructor; eauto|]. intros V E C. discriminate.
    - intros n e p q v D IH. apply G; [econstructor; eauto|]. intros V E C W T. unfold ttail in T. cbn [tailg] in T. rewrite C in T. apply ntail_ok in T as (a & A & I).
      assert (tstart (GNT n) = nstart n) as -> by (unfold tstart; cbn [startg]; now rewrite C).
      eapply tails_incl; [exact I|apply nstart_ok|]. apply IH; [auto|constructor|auto].
    - intros e p. apply G; [constructor|]. intros V E C. discriminate.
    - intros steps b e e' p q v D IH B. apply G; [econstructor; eauto|]. intros V E C W T. unfold ttail in T. cbn [tailg] in T. rewrite C in T.
      destruct (bvars b) as [vs|] eqn:BV; [|discriminate]. destruct (IH V E _ (extents v) _ _ (keeps_ok _ _ _ _ _ B) T) as (m & n & H & U).
      assert (tstart (GSeq steps b) = steps_start tstart (keeps b) steps) as -> by (unfold tstart; cbn [startg]; now rewrite C).
      exists m, n. split; [exact H|]. unfold hi_le. rewrite Forall_forall. intros z Zz. destruct (bvars_ok _ _ _ _ _ BV B z Zz) as (x & w & I & A & Zw).
      specialize (U _ _ I A). unfold hi_le in U. rewrite Forall_forall in U. auto.
    - intros gs x e p q v J D IH. apply G; [econstructor; eauto|]. intros V E C W T. unfold ttail in T. cbn [tailg] in T. rewrite C in T. change (kall ttail gs = Some W) in T.
      destruct (kall_in _ _ _ _ T J) as (a & A & I). eapply tails_incl; [exact I| |exact (IH V E _ A)].
      assert (tstart (GAlt gs) = fold_right (fun y a => N.lor (tstart y) a) 0%N gs) as -> by (unfold tstart; cbn [startg]; now rewrite C).
      clear -J. induction gs as [|y gs IHg]; [destruct J|]. cbn [fold_right]. destruct J as [->|J]; [apply nsub_l|]. eapply nsub_trans; [exact (IHg J)|apply nsub_r].
    - intros x e p q v D IH. apply G; [econstructor; eauto|]. intros V E C W T. unfold ttail in T. cbn [tailg] in T. rewrite C in T. start C. exact (IH V E W T).
    - intros x e p V E W T. eapply Z; eauto.
    - intros x e p q l D IH. apply G; [econstructor; eauto|]. intros V E C W T. unfold ttail in T. cbn [tailg] in T. rewrite C in T. discriminate.
    - intros app sep f e p q l vs n b B D IH Ch. apply G; [econstructor; eauto|]. intros V E C W T. unfold ttail in T. cbn [tailg] in T. rewrite C in T.
      apply list_tail in T as (S & a & c & A & C' & I1 & I2). start C. eapply tails_ext; [| |eapply (IH V E W); eauto].
      + cbn [vtailed extents]. rewrite app_nil_r, flat_map_app. apply incl_appr, incl_refl.
      + intros m Vm L U. unfold hi_le in *. cbn [vtailed extents] in *. rewrite app_nil_r, flat_map_app. apply Forall_app. split; [|auto].
        pose proof (sb_mono _ WF _ _ V Vm L) as Sm. pose proof (up_hi _ _ _ (beval_up toks WF _ _ V E _ _ B)) as U'. unfold hi_le in U'. cbn [extents] in U'.
        eapply Forall_impl; [|exact U']. cbv beta. intros z. lia.
    - intros sep f e p q vs n b D IH NE Ch. apply G; [econstructor; eauto|]. intros V E C W T. unfold ttail in T. cbn [tailg] in T. rewrite C in T.
      apply list_tail in T as (S & a & c & A & C' & I1 & I2). start C. eapply tails_ext; [| |eapply (IH V E W); eauto].
      + cbn [vtailed extents]. rewrite app_nil_r. apply incl_refl.
      + intros m Vm L U. unfold hi_le in *. cbn [vtailed extents] in *. now rewrite app_nil_r.
    - intros sep f e p p1 q vs Bt _ D IH Ch. apply G; [econstructor; eauto|]. intros V E C W T. unfold ttail in T. cbn [tailg] in T. rewrite C in T.
      apply list_tail in T as (S & a & c & A & C' & I1 & I2). start C. destruct (between_mono _ WF _ _ _ _ Bt V) as [V1 L1].
      destruct (IH V1 (eup_mono toks WF _ _ _ V V1 L1 E) W c C' I2 (conj S (ex_intro _ a (conj A I1)))) as (m & n & (Vm & Vn & L2 & L3 & L4 & H1 & H2 & O) & U).
      exists m, n. repeat split; auto; [lia|]. eapply holds_app; [apply reads_holds; eapply (between_reads toks WF (Some sep)); eauto|exact H1].
    - intros sep f e p V E W T. eapply Z; eauto.
    - intros sep f e p q vs n b D IH Ch. apply G; [econstructor; eauto|]. intros V E C W T. unfold ttail in T. cbn [tailg] in T. rewrite C in T.
      apply list_tail in T as (S & a & c & A & C' & I1 & I2). start C. eapply tails_ext; [| |eapply (IH V E W); eauto].
      + cbn [vtailed extents]. rewrite app_nil_r. apply incl_refl.
      + intros m Vm L U. unfold hi_le in *. cbn [vtailed extents] in *. now rewrite app_nil_r.
    - intros o c e p q v pm S K. apply G; [econstructor; eauto|]. intros V E C. discriminate.
    - intros x e p q v r D IH X. apply G; [econstructor; eauto|]. intros V E C. discriminate.
    - intros x e p q v D IH. apply G; [econstructor; eauto|]. intros V E C. discriminate.
    - intros x err e p q v D IH. apply G; [econstructor; eauto|]. intros V E C W T. unfold ttail in T. cbn [tailg] in T. rewrite C in T. start C. exact (IH V E W T).
    - intros x err e p q n r D IH S. apply G; [econstructor; eauto|]. intros V E C W T. unfold ttail in T. cbn [tailg] in T. rewrite C in T. discriminate.
    - intros l x e p q v D IH. apply G; [econstructor; eauto|]. intros V E C W T. unfold ttail in T. cbn [tailg] in T. rewrite C in T. start C. exact (IH V E W T).
    - intros err x e p q v D IH. apply G; [econstructor; eauto|]. intros V E C W T. unfold ttail in T. cbn [tailg] in T. rewrite C in T. start C. exact (IH V E W T).
    - intros a b e p q v D IH. apply G; [econstructor; eauto|]. intros V E C W T. unfold ttail in T. cbn [tailg] in T. rewrite C in T.
      apply kjoin_some in T as (a' & b' & A & B & I1 & I2). start C. eapply tails_incl; [exact I1|apply nsub_l|exact (IH V E _ A)].
    - intros a b e p q v D IH. apply G; [now apply D_IfAmbR|]. intros V E C W T. unfold ttail in T. cbn [tailg] in T. rewrite C in T.
      apply kjoin_some in T as (a' & b' & A & B & I1 & I2). start C. eapply tails_incl; [exact I2|apply nsub_r|exact (IH V E _ B)].
    - intros stmt e c T _. apply G; [econstructor; eauto|]. intros V E C. discriminate.
    - intros e p V E ks l vs W K T. exists p, p. repeat split; auto; try (now apply holds_nil). intros x w I A. apply (up_hi toks). eapply assoc_up; eauto.
    - intros pt x steps e p q v e1 e' r D IH B DS IHs V E ks l vs W K T. cbn [steps_tail] in T.
      destruct (der_mono _ WF _ _ _ _ _ D V) as [Vq L]. pose proof (steps_keep_ok _ _ _ _ _ _ _ DS Vq K) as K1.
      assert (eup q e1) as E1 by (eapply bind_up; [|eapply eup_mono; [exact WF|exact V|exact Vq|exact L|exact E]|exact B]; eapply der_up; eauto).
      cbn [steps_start]. destruct (step_words (steps_keep ks steps) pt x) as [W1|] eqn:SW.
      + apply kjoin_some in T as (a & b & [= <-] & T & I1 & I2). destruct (IHs Vq E1 _ _ _ _ K T) as (m & n & (Vm & Vn & L1 & L2 & L3 & H1 & H2 & O) & U).
        exists m, n. split; [|exact U]. repeat split; auto; [lia| |eapply holds_incl; [exact I2|apply incl_refl|exact H2]].
        eapply holds_app; [|eapply holds_incl; [exact I2|apply incl_refl|exact H1]]. eapply holds_incl; [exact I1|apply incl_refl|]. eapply step_words_ok; eauto.
      + destruct (keeps_pat _ _ _ _) eqn:KP; [|discriminate]. cbn [andb] in T. destruct (existsb _ (steps_vars steps)) eqn:Ex; [discriminate|]. cbn [negb] in T.
        apply kjoin_some in T as (a & b & T & T2 & I1 & I2).
        destruct (IH V E _ T) as (m & n & (Vm & Vn & L1 & L2 & L3 & H1 & H2 & O) & U). destruct (ders_mono _ WF _ _ _ _ _ DS Vq) as [Vr Lr].
        pose proof (step_kept _ _ _ _ _ _ _ _ _ K1 D V B KP) as IK.
        exists m, n. split; [repeat split; auto; [lia| |]|].
        * eapply holds_incl; [exact I1|exact IK|exact H1].
        * eapply holds_app; [eapply holds_incl; [exact I1|exact IK|exact H2]|]. eapply holds_incl; [exact I2|apply incl_refl|]. eapply steps_words_ok; eauto.
        * intros y w I A. assert (mem_str y (steps_vars steps) = false) as N.
          { destruct (mem_str y (steps_vars steps)) eqn:M; [|auto]. unfold mem_str in M. apply existsb_exists in M as (y' & M & Ey). apply String.eqb_eq in Ey. subst y'.
            assert (existsb (fun x => mem_str x vs) (steps_vars steps) = true); [|congruence]. apply existsb_exists. exists y. split; [auto|].
            unfold mem_str. apply existsb_exists. exists y. split; [auto|apply String.eqb_refl]. }
          rewrite (ders_other _ _ _ _ _ _ DS _ N) in A. exact (hi_bound _ _ _ _ _ _ _ _ V Vm E L1 U B A).
    - intros so f e p q Vq L E1 [_ O] V E W a A I S. exists p, q. repeat split; auto; try (now apply holds_nil). constructor.
    - intros so f e p p1 p2 q v vs D IH Bt _ DI IHi V E W a A I S. destruct (der_mono _ WF _ _ _ _ _ D V) as [V1 L1].
      destruct (between_mono _ WF _ _ _ _ Bt V1) as [V2 L2]. destruct (IHi V2 (eup_mono toks WF _ _ _ V V2 ltac:(lia) E) W a A I S) as (m & n & (Vm & Vn & L3 & L4 & L5 & H1 & H2 & O) & U).
      exists m, n. split; [repeat split; auto; [lia| |]|].
      + cbn [extents flat_map]. eapply holds_app; [eapply holds_incl; [exact I|apply incl_appl, incl_refl|]; exact (proj1 (proj1 (cover_all toks WF) _ _ _ _ _ D V) _ A)|].
        eapply holds_app; [apply reads_holds; exact (between_reads toks WF so e p1 p2 W Bt V1 S)|]. eapply holds_incl; [apply incl_refl|apply incl_appr, incl_refl|exact H1].
      + cbn [extents flat_map]. eapply holds_incl; [apply incl_refl|apply incl_appr, incl_refl|exact H2].
      + unfold hi_le. cbn [extents flat_map]. apply Forall_app. split; [|exact U]. pose proof (sb_mono _ WF _ _ V1 Vm ltac:(lia)).
        exact (hi_mono _ _ _ ltac:(eassumption) (up_hi _ _ _ (der_up _ _ _ _ _ D V E))).
  Qed.

  (** * What stands behind *)

  Lemma later_ge steps : forall e p e' q, ders toks steps e p e' q -> valid p -> forallb (fun s => closed (snd s)) steps = true ->
    forall x w, In x (steps_vars steps) -> assoc x e' = Some w -> lo_ge (sb p) w.
  Proof.
    induction steps as [|[pt y] steps IH]; intros e p e' q D V C x w I A; [destruct I|]. apply inv_steps in D as (r & v & e1 & D & B & D').
    cbn [forallb snd] in C. apply andb_true_iff in C as [C1 C2]. destruct (der_mono _ WF _ _ _ _ _ D V) as [Vr L].
    destruct (mem_str x (steps_vars steps)) eqn:M.
    - unfold mem_str in M. apply existsb_exists in M as (x' & M & Ex). apply String.eqb_eq in Ex. subst x'.
      specialize (IH _ _ _ _ D' Vr C2 _ _ M A). pose proof (sb_mono _ WF _ _ V Vr L) as Sm. unfold lo_ge in *. eapply Forall_impl; [|exact IH]. cbv beta. intros z Hz. lia.
    - rewrite (ders_other _ _ _ _ _ _ D' _ M) in A. unfold steps_vars in I. cbn [flat_map fst] in I. apply in_app_iff in I as [I|I].
      + assert (incl (extents w) (extents v)) as J.
        { clear -I A B. revert v e e1 B A. induction pt as [y|a IHa b IHb]; intros v e e1 B A; cbn [bind_pat pat_vars] in *.
          - destruct I as [->|[]]. injection B as <-. cbn [assoc] in A. rewrite String.eqb_refl in A. injection A as <-. apply incl_refl.
          - destruct v as [| | | | | | | | |v1 v2| |]; try discriminate. destruct (bind_pat a v1 e) as [e2|] eqn:E; [|discriminate]. cbn [extents].
            destruct (mem_str x (pat_vars b)) eqn:M.
            + unfold mem_str in M. apply existsb_exists in M as (x' & M & Ex). apply String.eqb_eq in Ex. subst x'. apply incl_appr. eauto.
            + rewrite (bind_other _ _ _ _ _ B M) in A. apply in_app_iff in I as [I|I]; [apply incl_appl; eauto|]. apply mem_str_in in M. contradiction. }
        unfold closed in C1. destruct (tchk [] 0 still y) as [t|] eqn:T; [|discriminate].
        pose proof (rv_in _ _ _ _ _ _ (der_top toks _ _ _ _ _ _ (proj1 (spans_all toks WF NUM) _ _ _ _ _ D) V T)) as R.
        unfold lo_ge. rewrite Forall_forall in *. intros z Z. specialize (R z (J z Z)). unfold inside in R. lia.
      + apply mem_str_in in M. contradiction.
  Qed.

  (** A token from one point on, and one before a point. *)
  Lemma tok_from m i t : valid m -> nth_error toks i = Some t -> compound t = false -> off m <= i -> sb m <= fst (token_extent t).
  Proof.
    intros V H C L. destruct (Nat.eq_dec (off m) i) as [<-|N].
    - unfold Points.sb. rewrite H, (valid_whole _ _ _ V H C). cbn [sub_rank]. lia.
    - pose proof V as (u & U & _). pose proof (nth_mono _ WF _ _ _ _ U H ltac:(lia)). pose proof (rank_le _ WF _ _ U V). unfold Points.sb. rewrite U. lia.
  Qed.
  Lemma tok_to m i t : valid m -> nth_error toks i = Some t -> i < off m -> snd (token_extent t) <= sb m.
  Proof. intros V H L. pose proof V as (u & U & _). pose proof (nth_mono _ WF _ _ _ _ H U L). unfold Points.sb. rewrite U. lia. Qed.

  (** * Nodes *)

  (** The fields of a node have the extents of what is built. *)
  Definition built (q : point) (e : env) (f : string * bexp) (v : val) : Prop :=
    exists w, beval toks q e (snd f) = BOk w /\ extents v = extents w /\ (fst f = "extent" -> v = w).

  Lemma built_keeps q e fs vs : Forall2 (built q e) fs vs -> Forall (keptok e (inner fs vs)) (field_keeps fs).
  Proof.
    induction 1 as [|[f b] v fs vs B F IH]; [constructor|]. destruct B as (w & B & X & _). unfold field_keeps, inner in *. cbn [map combine flat_map fst snd] in *. apply Forall_app. split.
    - destruct (String.eqb f "extent"); [constructor|]. eapply keptoks_incl; [|eapply keeps_ok; exact B]. rewrite X. apply incl_appl, incl_refl.
    - eapply keptoks_incl; [|exact IH]. apply incl_appr, incl_refl.
  Qed.

  Lemma built_inner q e fs vs f b : Forall2 (built q e) fs vs -> In (f, b) fs -> String.eqb f "extent" = false ->
    exists w, beval toks q e b = BOk w /\ incl (extents w) (inner fs vs).
  Proof.
    induction 1 as [|[f' b'] v fs vs B F IH]; intros I N; [destruct I|]. unfold inner in *. cbn [map combine flat_map fst snd] in *. destruct I as [[= -> ->]|I].
    - destruct B as (w & B & X & _). exists w. split; [auto|]. rewrite N, <- X. apply incl_appl, incl_refl.
    - destruct (IH I N) as (w & B' & J). exists w. split; [auto|]. apply incl_appr, J.
  Qed.

  Lemma block_keeps_ok q e fs vs : Forall2 (built q e) fs vs -> Forall (keptok e (inner fs vs)) (block_keeps fs).
  Proof.
    intros F. unfold block_keeps. destruct (assoc "statements" fs) as [b1|] eqn:A1; [|constructor]. destruct b1; try (constructor; fail).
    destruct b1_1 as [s| | | | | | | | | | | | | | | | | | | | | | | |]; try (constructor; fail). destruct b1_2 as [t| | | | | | | | | | | | | | | | | | | | | | | |]; try (constructor; fail).
    destruct (assoc "expression" fs) as [b2|] eqn:A2; [|constructor]. destruct b2; try (constructor; fail).
    destruct b2_1 as [s'| | | | | | | | | | | | | | | | | | | | | | | |]; try (constructor; fail). destruct b2_2 as [t'| | | | | | | | | | | | | | | | | | | | | | | |]; try (constructor; fail).
    destruct (String.eqb s s' && String.eqb t t') eqn:Q; [|constructor]. apply andb_true_iff in Q as [Q1 Q2]. apply String.eqb_eq in Q1, Q2. subst s' t'.
    constructor; [|constructor]. intros w A. apply SpansOk.assoc_in in A1, A2.
    destruct (built_inner _ _ _ _ _ _ F A1 eq_refl) as (w1 & B1 & I1). destruct (built_inner _ _ _ _ _ _ F A2 eq_refl) as (w2 & B2 & I2).
    cbn [beval] in B1, B2. rewrite A in B1, B2. cbn [bbind] in B1, B2. destruct (assoc t e) as [u|]; cbn [bbind] in B1, B2; [|discriminate].
    destruct w as [| | | | | | | |l| | |]; try discriminate. destruct u; try discriminate. injection B1 as <-. injection B2 as <-.
    destruct (block_cases l b) as [E|(en & l' & v & L & E)]; rewrite E in *; cbn [fst snd] in *; [exact I1|].
    subst l. cbn [extents] in *. rewrite flat_map_app. cbn [flat_map extents]. rewrite app_nil_r. apply incl_app; auto.
  Qed.

  Lemma node_keeps_ok q e fs vs : Forall2 (built q e) fs vs -> Forall (keptok e (inner fs vs)) (node_keeps fs).
  Proof. intros F. apply Forall_app. split; [exact (built_keeps _ _ _ _ F)|exact (block_keeps_ok _ _ _ _ F)]. Qed.

  Lemma built_field q e k fs vs f w : Forall2 (built q e) fs vs -> names_chk k (map fst fs) = true -> get_field f (VNode k vs) = Some w ->
    exists b, assoc f fs = Some b /\ built q e (f, b) w.
  Proof.
    intros F N G. unfold names_chk in N. unfold get_field in G. destruct (struct_fields k) as [fields|]; [|discriminate]. destruct (field_index f fields) as [i|] eqn:X; [|discriminate].
    apply names_eqb_eq in N. revert fields N i X G. induction F as [|[f' b'] v fs vs B F IH]; intros [|[[g ty] fl] fields] N i X G; try discriminate.
    cbn [map fst] in N. injection N as N1 N2. subst g. cbn [field_index] in X. cbn [assoc].
    destruct (String.eqb f f') eqn:Eq.
    - injection X as <-. cbn [nth_error] in G. injection G as <-. apply String.eqb_eq in Eq. subst f'. eauto.
    - destruct (field_index f fields) as [j|] eqn:Xj; [|discriminate]. injection X as <-. cbn [nth_error] in G. eapply IH; eauto.
  Qed.

  (** * Tokens that begin an element *)

  Lemma bits_meet a M : N.land (2 ^ a) M <> 0%N -> N.testbit M a = true.
  Proof.
    intros H. destruct (N.testbit M a) eqn:T; [auto|exfalso]. apply H. apply N.bits_inj_0. intros n. rewrite N.land_spec, N.pow2_bits_eqb.
    destruct (N.eqb_spec a n) as [->|]; [now rewrite T|reflexivity].
  Qed.
  Lemma kinds_meet l a : N.testbit (fold_right (fun w a => N.lor (First.bit w) a) 0%N l) a = true -> exists w, In w l /\ a = (2 + tkind_index w)%N.
  Proof.
    induction l as [|w l IH]; cbn [fold_right]; [now rewrite N.bits_0|]. rewrite N.lor_spec. intros H. apply orb_true_iff in H as [H|H].
    - rewrite First.bit_pow, N.pow2_bits_eqb in H. apply N.eqb_eq in H. exists w. split; [now left|auto].
    - destruct (IH H) as (w' & I & E). exists w'. split; [now right|auto].
  Qed.
  Lemma number_bit (b : bool) a : N.testbit (if b then First.bit_number else 0%N) a = true -> b = true /\ a = 1%N.
  Proof.
    destruct b; [|now rewrite N.bits_0]. change First.bit_number with (2 ^ 1)%N. rewrite N.pow2_bits_eqb. intros H. apply N.eqb_eq in H. auto.
  Qed.

  Lemma opens_ok k f M m u : valid m -> nth_error toks (off m) = Some u -> compound u = false -> offers M m -> N.land M (opening_set k f) = M -> opens k f u.
  Proof.
    intros V U C O J. apply (offers_sub _ _ _ J) in O. clear M J. unfold offers, First.offered, First.offered_at in O.
    rewrite U, (valid_whole _ _ _ V U C), (compound_split _ C), N.lor_0_r in O. unfold opening_set in O.
    assert (exists a, First.tbit u = (2 ^ a)%N /\ (a = 1%N -> exists n, u = TkNumber n) /\ (forall w, a = (2 + tkind_index w)%N -> exists e, u = Tk w e) /\ (0 < a)%N) as (a & A & A1 & A2 & A3).
    { destruct u as [w e|n]; cbn [First.tbit].
      - exists (2 + tkind_index w)%N. rewrite First.bit_pow. split; [auto|]. split; [intros; lia|]. split; [|lia]. intros w' E. exists e. f_equal. apply tkind_index_inj. lia.
      - exists 1%N. split; [reflexivity|]. split; [eauto|]. split; [|lia]. intros w E. lia. }
    rewrite A in O. change First.bit_any with (2 ^ 0)%N in O. rewrite N.land_comm, N.land_lor_distr_l in O.
    assert (exists b, (b = 0%N \/ b = a) /\ N.testbit (N.lor (if fst (opening k f) then First.bit_number else 0%N) (fold_right (fun w a => N.lor (First.bit w) a) 0%N (snd (opening k f)))) b = true) as (b & Eb & T).
    { match type of O with N.lor ?x ?y <> _ => destruct (N.eq_dec x 0) as [Z|Z]; [destruct (N.eq_dec y 0) as [Z'|Z']|] end.
      - exfalso. apply O. now rewrite Z, Z'.
      - exists a. split; [auto|]. now apply bits_meet.
      - exists 0%N. split; [auto|]. now apply bits_meet. }
    rewrite N.lor_spec in T. apply orb_true_iff in T as [T|T].
    - apply number_bit in T as [Tn Tb]. destruct (A1 ltac:(lia)) as (n & ->). exact Tn.
    - apply kinds_meet in T as (w & I & Ew). destruct (A2 w ltac:(lia)) as (e & ->). exact I.
  Qed.

  Lemma sb_in m u : valid m -> nth_error toks (off m) = Some u -> compound u = true -> sb m < snd (token_extent u).
  Proof.
    intros (u' & U & S) H C. rewrite H in U. injection U as <-. unfold Points.sb. rewrite H. destruct (sub m) as [n|] eqn:Sm; cbn [sub_rank].
    - pose proof (wf_split _ WF _ _ _ H S). lia.
    - assert (split u 0 <> None) as S0 by (destruct u as [[] [? ?]|]; try discriminate; cbn; discriminate). pose proof (wf_split _ WF _ _ _ H S0). lia.
  Qed.

  Section Node.
    Variables (k : string) (fs : list (string * bexp)) (vs : list val) (e' : env) (q r0 : point) (x : extent).
    Hypothesis F : Forall2 (built q e') fs vs.
    Hypothesis N : names_chk k (map fst fs) = true.
    Hypothesis Vq : valid q.
    Hypothesis V0 : valid r0.
    Hypothesis L0 : pos r0 <= pos q.
    Hypothesis X : ex toks r0 q = BOk x.

    Definition placed (t : token) : Prop :=
      word (frayed_words k) t \/ within_some (inner fs vs) t \/ exists f, In f (fraying k) /\ dropped_at f k vs t /\ opened toks f k vs x t.

    Lemma field_from f b l w : get_field f (VNode k vs) = Some w -> assoc f fs = Some b -> bvars b = Some l -> from e' l w.
    Proof.
      intros G A B. destruct (built_field _ _ _ _ _ _ _ F N G) as (b' & A' & u & Bu & Xu & _). rewrite A in A'. injection A' as <-. cbn [snd] in Bu.
      eapply from_incl; [|eapply bvars_ok; eauto]. rewrite Xu. apply incl_refl.
    Qed.

    Lemma fray_after here later f n : fray_at k fs here later f = true ->
      (forall y w, mem_str y (here ++ later) = false -> assoc y e' = Some w -> hi_le n w) ->
      forall g z, In g (f :: fields_before f (source_order k)) -> In z (field_extents g (VNode k vs)) -> snd z <= n.
    Proof.
      intros H A g z I Z. unfold fray_at in H. apply andb_true_iff in H as [H1 _]. rewrite forallb_forall in H1.
      specialize (H1 _ I). unfold field_extents in Z. destruct (get_field g (VNode k vs)) as [w|] eqn:G; [|destruct Z].
      destruct (assoc g fs) as [b|] eqn:Ab; [|discriminate]. destruct (bvars b) as [l|] eqn:Bl; [|discriminate].
      destruct (field_from _ _ _ _ G Ab Bl z Z) as (y & u & J & Au & Zu). unfold disjoint in H1. rewrite forallb_forall in H1.
      specialize (H1 _ J). apply negb_true_iff in H1. specialize (A _ _ H1 Au). unfold hi_le in A. rewrite Forall_forall in A. exact (A _ Zu).
    Qed.

    Lemma fray_at_ok here later f n t : fray_at k fs here later f = true ->
      (forall y w, mem_str y (here ++ later) = false -> assoc y e' = Some w -> hi_le n w) -> n <= fst (token_extent t) ->
      (forall y w, In y later -> assoc y e' = Some w -> before_all t (extents w)) -> dropped_at f k vs t.
    Proof.
      intros H A Ln B. pose proof (fray_after _ _ _ _ H A) as HA. unfold fray_at in H. apply andb_true_iff in H as [_ H2]. rewrite forallb_forall in H2.
      split; [intros z Z; specialize (HA f z (or_introl eq_refl) Z); lia|]. split; [intros g I z Z; specialize (HA g z (or_intror I) Z); lia|]. intros g I z Z. specialize (H2 _ I). unfold field_extents in Z.
      destruct (get_field g (VNode k vs)) as [w|] eqn:G; [|destruct Z].
      destruct (assoc g fs) as [b|] eqn:Ab; [|discriminate]. destruct (bvars b) as [l|] eqn:Bl; [|discriminate].
      destruct (field_from _ _ _ _ G Ab Bl z Z) as (y & u & J & Au & Zu). unfold subset in H2. rewrite forallb_forall in H2.
      specialize (H2 _ J). unfold mem_str in H2. apply existsb_exists in H2 as (y' & M & Ey). apply String.eqb_eq in Ey. subst y'. exact (B _ _ M Au _ Zu).
    Qed.

    (** A token between [m] and [r], where what is dropped begins at [m]. *)
    Lemma frayed_ok here rest e1 M m r i t f : valid m -> valid r -> pos r0 <= pos m -> pos m <= pos r -> ders toks rest e1 r e' q ->
      fray_at k fs here (steps_vars rest) f = true -> forallb (fun s => closed (snd s)) rest = true ->
      (forall y w, mem_str y (here ++ steps_vars rest) = false -> assoc y e' = Some w -> hi_le (sb m) w) ->
      offers M m -> N.land M (opening_set k f) = M ->
      nth_error toks i = Some t -> compound t = false -> off m <= i < off r -> dropped_at f k vs t /\ opened toks f k vs x t.
    Proof.
      intros Vm Vr Lm Lr D Hf Cl A O J I C R.
      assert (forall i t, nth_error toks i = Some t -> compound t = false -> off m <= i < off r -> dropped_at f k vs t) as Drop.
      { clear i t I C R. intros i t I C R. eapply (fray_at_ok _ _ _ (sb m)); [exact Hf|exact A|exact (tok_from _ _ _ Vm I C ltac:(lia))|].
        intros y w My Ay z Z. pose proof (tok_to _ _ _ Vr I ltac:(lia)) as S2. pose proof (later_ge _ _ _ _ _ D Vr Cl _ _ My Ay) as Lw. unfold lo_ge in Lw. rewrite Forall_forall in Lw. specialize (Lw _ Z). lia. }
      split; [eauto|]. pose proof Vm as (u & U & _). destruct (ders_mono _ WF _ _ _ _ _ D Vr) as [_ Lq].
      exists u. split; [eapply nth_error_In; eauto|]. split.
      { destruct (Nat.eq_dec (off m) i) as [E|E]; [rewrite E, I in U; injection U as <-; lia|].
        pose proof (nth_mono _ WF _ _ _ _ U I ltac:(lia)). pose proof (wf_ord _ WF _ _ U). lia. }
      pose proof (sb_mono _ WF _ _ V0 Vm Lm) as S0. destruct (compound u) eqn:Cu.
      - pose proof (sb_in _ _ Vm U Cu) as S1. destruct (ex_ok _ WF _ _ V0 Vq L0) as (x' & X' & Fx & _). rewrite X in X'. injection X' as <-. split; [lia|].
        intros g z Ig Z. pose proof (fray_after _ _ _ _ Hf A g z Ig Z). lia.
      - pose proof (pos_off _ _ _ V0 Vm Lm) as O0. pose proof (pos_off _ _ _ Vr Vq Lq) as Oq.
        split; [exact (ex_has _ WF _ _ _ _ _ V0 Vq L0 X U Cu ltac:(lia))|]. split; [exact (Drop _ _ U Cu ltac:(lia))|]. exact (opens_ok k f M m u Vm U Cu O J).
    Qed.

    Lemma leading_ok y e p r v w : der toks y e p r v -> leading y = Some w -> r = p \/ offers (First.bit w) p.
    Proof.
      intros D H. destruct y; try discriminate. destruct y; try discriminate. cbn [leading] in H. inversion D as [| | | | |y0 e1 p1 q1 v1 D1 E1 E2 E3 E4 E5|y0 e1 p1 E1 E2 E3 E4 E5| | | | | | | | | | | | | | | |]; subst; [clear D; rename D1 into D|now left].
      apply inv_nt in D. destruct (table n) as [| | |steps b| | | | | | | | | | | | | | | |]; try discriminate. destruct steps as [|[pt y] steps]; try discriminate. destruct y; try discriminate. destruct m; try discriminate.
      injection H as ->. right. apply inv_seq in D as (e2 & D & _). apply inv_steps in D as (r1 & v2 & e3 & D & _). apply inv_tok in D as (_ & pm & T).
      intros Z. pose proof (First.tok_idle toks (MK w) e0 pm p Z) as H. rewrite T in H. exact H.
    Qed.

    Lemma node_steps_ok steps : forall e p, ders toks steps e p e' q -> valid p -> pos r0 <= pos p -> eup p e -> node_steps k fs steps = true ->
      forall i t, nth_error toks i = Some t -> compound t = false -> off p <= i < off q -> placed t.
    Proof.
      induction steps as [|[pt y] steps IH]; intros e p D V Lp E H i t I C R.
      - apply inv_nil in D as [_ ->]. lia.
      - apply inv_steps in D as (r & v & e1 & D & B & D'). cbn [node_steps] in H. apply andb_true_iff in H as [H1 H].
        destruct (der_mono _ WF _ _ _ _ _ D V) as [Vr L].
        assert (eup r e1) as E1 by (eapply bind_up; [|eapply eup_mono; [exact WF|exact V|exact Vr|exact L|exact E]|exact B]; eapply der_up; eauto).
        destruct (le_lt_dec (off r) i) as [G|G]; [apply (IH _ _ D' Vr ltac:(lia) E1 H1 i t I C); lia|].
        pose proof (steps_keep_ok _ _ _ _ _ _ _ D' Vr (node_keeps_ok _ _ _ _ F)) as K.
        apply orb_true_iff in H as [H|H]; [apply orb_true_iff in H as [H|H]|].
        + apply ksub_ok in H as (W & SW & J). destruct (step_words_ok _ _ _ _ _ _ _ _ _ _ K D V B SW _ _ I C ltac:(lia)) as [Y|Y]; [left; eapply word_incl; eauto|right; left; exact Y].
        + apply andb_true_iff in H as [H3 H4]. right. right. apply existsb_exists in H3 as (f & If & Hf). exists f. split; [auto|]. apply andb_true_iff in Hf as [Hf Hl].
          destruct (leading y) as [w0|] eqn:Ld; [|discriminate]. destruct (leading_ok _ _ _ _ _ _ D Ld) as [->|O]; [lia|].
          eapply (frayed_ok (pat_vars pt) steps e1 _ p r); eauto; [|now apply nsub_sub|lia].
          intros y' w M A. unfold mem_str in M. rewrite existsb_app in M. apply orb_false_iff in M as [M1 M2]. rewrite (ders_other _ _ _ _ _ _ D' _ M2) in A.
          rewrite (bind_other _ _ _ _ _ B M1) in A. exact (up_hi _ _ _ (assoc_up toks _ _ _ _ E A)).
        + apply andb_true_iff in H as [H H4]. apply andb_true_iff in H as [H H3]. apply andb_true_iff in H as [KP H2].
          apply ksub_ok in H2 as (W & T & J). destruct (proj1 tail_all _ _ _ _ _ D V E _ T) as (m & n & (Vm & Vn & L1 & L2 & L3 & Hm & Hn & O) & U).
          assert (forall Z : within_some (extents v) t, placed t) as In_v.
          { intros Y. right. left. eapply some_incl; [|exact Y]. exact (step_kept _ _ _ _ _ _ _ _ _ K D V B KP). }
          destruct (le_lt_dec (off m) i) as [Gm|Gm].
          * destruct (le_lt_dec (off n) i) as [Gn|Gn].
            -- destruct (Hn _ _ I C ltac:(lia)) as [Y|Y]; [left; eapply word_incl; eauto|auto].
            -- right. right. apply existsb_exists in H3 as (f & If & Hf). exists f. split; [auto|]. apply andb_true_iff in Hf as [Hf Hs].
               destruct O as [->|O]; [lia|]. pose proof (pos_off _ _ _ Vn Vr L3).
               eapply (frayed_ok [] steps e1 _ m r); eauto; try lia; try (now apply nsub_sub).
               cbn [app]. intros y' w M A. rewrite (ders_other _ _ _ _ _ _ D' _ M) in A. exact (hi_bound _ _ _ _ _ _ _ _ V Vm E L1 U B A).
          * destruct (Hm _ _ I C ltac:(lia)) as [Y|Y]; [left; eapply word_incl; eauto|auto].
    Qed.
  End Node.

  Lemma ders_from x steps : forall l e p e' q, valid p -> eup p e -> steps_from x steps = Some l -> ders toks steps e p e' q ->
    exists em r, assoc x e' = Some (VPoint r) /\ valid r /\ pos p <= pos r /\ eup r em /\ ders toks l em r e' q.
  Proof.
    induction steps as [|[pt y] steps IH]; intros l e p e' q V E H D; [discriminate|]. apply inv_steps in D as (r & v & e1 & D & B & D').
    destruct (der_mono _ WF _ _ _ _ _ D V) as [Vr L].
    assert (eup r e1) as E1 by (eapply bind_up; [|eapply eup_mono; [exact WF|exact V|exact Vr|exact L|exact E]|exact B]; eapply der_up; eauto).
    assert (steps_from x steps = Some l -> exists em r, assoc x e' = Some (VPoint r) /\ valid r /\ pos p <= pos r /\ eup r em /\ ders toks l em r e' q) as K.
    { intros H'. destruct (IH _ _ _ _ _ Vr E1 H' D') as (em & r' & A & V' & L' & E' & D2). exists em, r'. repeat split; auto. lia. }
    cbn [steps_from] in H. destruct pt as [z|]; [|auto]. destruct y; auto.
    destruct (String.eqb x z && negb (mem_str x (steps_vars steps))) eqn:X; [|auto]. apply andb_true_iff in X as [X1 X2]. apply String.eqb_eq in X1. subst z.
    apply negb_true_iff in X2. injection H as <-. apply inv_point in D as [-> ->]. cbn [bind_pat] in B. injection B as <-. exists ((x, VPoint p) :: e), p.
    repeat split; auto. rewrite (ders_other _ _ _ _ _ _ D' _ X2). cbn [assoc]. now rewrite String.eqb_refl.
  Qed.

  Lemma node_unled steps k fs : node_neat steps k fs = true -> is_led k = true -> False.
  Proof. unfold node_neat. intros H L. rewrite L in H. discriminate. Qed.

  Lemma node_frays_ok steps e p e' q k fs vs : valid p -> eup p e -> ders toks steps e p e' q -> node_frays k fs steps && names_chk k (map fst fs) = true ->
    Forall2 (built q e') fs vs -> frays toks k vs.
  Proof.
    intros V E D H F x t G I So C Li. apply andb_true_iff in H as [H N].
    rewrite (inner_is _ _ _ N). destruct (built_field _ _ _ _ _ _ _ F N G) as (b & A & w & B & _ & X). specialize (X eq_refl). subst w. cbn [snd] in B.
    unfold node_frays in H. rewrite A in H. destruct b as [|z| | | | | | | | | | | | | | | | | | | | | | |]; try discriminate.
    destruct (steps_from z steps) as [l|] eqn:SF; [|discriminate]. destruct (ders_from _ _ _ _ _ _ _ V E SF D) as (em & r & Ar & Vr & Lr & Er & Dr).
    destruct (ders_mono _ WF _ _ _ _ _ Dr Vr) as [Vq Lq]. cbn [beval] in B. rewrite Ar in B. cbn [as_point bbind] in B.
    destruct (ex toks r q) as [x'|] eqn:X; cbn [bbind] in B; [|discriminate]. injection B as ->.
    apply In_nth_error in I as (i & I). pose proof (in_ex _ WF _ _ _ _ _ Vr Vq Lq X I C So Li) as R.
    exact (node_steps_ok _ _ _ _ _ _ _ F N Vq Vr Lq X _ _ _ Dr Vr (le_n _) Er H _ _ I C R).
  Qed.

  Lemma node_neat_ok steps e p e' q k fs vs : valid p -> eup p e -> ders toks steps e p e' q -> node_neat steps k fs = true ->
    Forall2 (built q e') fs vs -> is_frayed k && is_whole k = true -> frays toks k vs.
  Proof.
    intros V E D H F T. unfold node_neat in H. apply andb_true_iff in H as [_ H]. rewrite T in H. cbn [negb orb] in H. exact (node_frays_ok _ _ _ _ _ _ _ _ V E D H F).
  Qed.
End DropsNeat.
