(** The main induction: every parser of the table behaves. *)

From Coq Require Import String List Arith Bool Lia.
From Verif Require Import Base Peresil Token Schema Value Nt Grammar Points Table Static Typing Safety Yard.
Import ListNotations.
Local Open Scope string_scope.
Local Open Scope list_scope.
Local Open Scope nat_scope.

Lemma tsafe_ld clean x : tsafe clean x = true -> tld x <= K.
Proof.
  intros H. unfold tsafe in H. destruct x; cbn [gsafe] in H; apply andb_true_iff in H; destruct H as [H _];
    apply Nat.leb_le in H; exact H.
Qed.

Lemma K_pos : 1 <= K.
Proof. unfold K. lia. Qed.

Record nt_facts (n : nt) : Prop := {
  nf_p : np n = true -> tprog (table n) = true;
  nf_a : na n = true -> tadv (table n) = true;
  nf_x : nx n = true -> txs (table n) = true;
  nf_k : nk n = true -> tpk (table n) = true;
  nf_ld : tld (table n) <= ldn n;
  nf_safe : tsafe false (table n) = true;
  nf_hf : hole_free (nt_type n) = true;
  nf_ty : exists t, ginfer [] (table n) = Some t /\ tle t (nt_type n) = true
}.

Lemma implb_elim a b : implb a b = true -> a = true -> b = true.
Proof. destruct a, b; auto. Qed.

Lemma nt_facts_all n : nt_facts n.
Proof.
  pose proof (table_ok n) as H. unfold nt_ok in H.
  repeat (apply andb_true_iff in H; destruct H as [H ?]).
  constructor; try (apply implb_elim; assumption); auto.
  - now apply Nat.leb_le.
  - destruct (ginfer [] (table n)) as [t|]; [eauto|discriminate].
Qed.

Lemma ld_steps_le steps clean : safe_steps tsafe steps clean = true -> ld_steps np tld steps <= K.
Proof.
  revert clean. induction steps as [|[p y] steps IH]; intros clean H; cbn [ld_steps]; [unfold K; lia|].
  cbn [safe_steps] in H. apply andb_true_iff in H. destruct H as [H1 H2].
  apply tsafe_ld in H1. apply IH in H2. unfold tprog in *. destruct (prog np y); lia.
Qed.

Lemma alts_ld gs : forallb (tsafe false) gs = true ->
  forall y, In y gs -> tld y <= fold_right (fun y n => Nat.max (tld y) n) 0 gs.
Proof.
  intros _. induction gs as [|z gs IH]; intros y []; cbn [fold_right].
  - subst. lia.
  - apply IH in H. lia.
Qed.

Lemma infer_alts_in gi te gs t : infer_alts gi te gs = Some t ->
  forall y, In y gs -> exists u, gi te y = Some u /\ tle u t = true.
Proof.
  revert t. induction gs as [|z gs IH]; intros t H; [discriminate|]. cbn [infer_alts] in H.
  destruct gs as [|z' gs].
  - intros y [<-|[]]. exists t. split; [auto|apply tle_refl].
  - unfold join_o in H. destruct (gi te z) as [u|] eqn:E; [|discriminate].
    destruct (infer_alts gi te (z' :: gs)) as [u'|] eqn:E'; [|discriminate].
    apply join_ub in H. destruct H as [H1 H2]. intros y [<-|Hy]; [eauto|].
    destruct (IH _ eq_refl y Hy) as (w & W1 & W2). exists w. split; [auto|].
    eapply tle_trans; eauto.
Qed.

Lemma ldn_K m : S (ldn m) <= K.
Proof.
  assert (forallb (fun m => S (ldn m) <=? K) all_nts = true) as H by (vm_compute; reflexivity).
  rewrite forallb_forall in H. apply Nat.leb_le. apply H. apply all_nts_complete.
Qed.

Section RunOk.
  Variable toks : list token.
  Hypothesis WF : wf_toks toks.

  Notation sb := (sb toks).
  Notation valid := (valid toks).
  Notation okp := (okp toks).
  Notation rem := (rem toks).

  Definition gfl (x : g) : flags := mkF (tprog x) (tadv x) (txs x) (tpk x).

  Lemma need_le p q y n : pos p <= pos q -> tld y + K * rem p <= n -> tld y + K * rem q <= n.
  Proof. intros L H. pose proof (rem_le toks _ _ L). nia. Qed.

  Lemma need_lt p q y n : valid p -> pos p < pos q -> tld y <= K -> K * rem p <= n -> tld y + K * rem q <= n.
  Proof. intros V L Y H. pose proof (rem_lt toks _ _ V L). nia. Qed.

  Lemma krem_le p q : pos p <= pos q -> K * rem q <= K * rem p.
  Proof. intros L. apply Nat.mul_le_mono_l. now apply rem_le. Qed.

  Lemma krem_lt p q : valid p -> pos p < pos q -> K + K * rem q <= K * rem p.
  Proof.
    intros V L. pose proof (rem_lt toks _ _ V L) as H.
    assert (K * S (rem q) <= K * rem p) by (apply Nat.mul_le_mono_l; lia). lia.
  Qed.

  Lemma off_mono p q r : valid p -> valid q -> valid r -> pos p <= pos q -> pos q <= pos r ->
    (off p < off q \/ off q < off r) -> off p < off r.
  Proof.
    intros Vp Vq Vr. pose proof (valid_rank _ _ Vp). pose proof (valid_rank _ _ Vq).
    pose proof (valid_rank _ _ Vr). unfold pos. lia.
  Qed.

  Lemma good_trans lo t fl fl' p q r v :
    valid p -> valid q -> pos p <= pos q -> good toks lo t fl q r v ->
    (fp fl' = true -> pos p < pos q \/ fp fl = true) ->
    (fa fl' = true -> off p < off q \/ fa fl = true) ->
    (fx fl' = true -> starts toks p v) ->
    (fk fl' = true -> pos p = pos r -> semi toks p) ->
    good toks lo t fl' p r v.
  Proof.
    intros Vp Vq L G A B C D. destruct G. constructor; auto; try lia.
    - intros F. destruct (A F) as [|F']; [lia|]. specialize (g_prog F'). lia.
    - intros F. apply (off_mono p q r); auto. destruct (B F) as [|F']; [left; auto|right; auto].
  Qed.

  Lemma starts_point p : starts toks p (VPoint p).
  Proof. repeat split; intros; try discriminate. congruence. Qed.

  (** Binding a pattern. *)
  Lemma bind_pat_ok lo pt : forall e te p t v q te',
    env_ok toks lo e te p -> valid p -> valid q -> pos p <= pos q ->
    holds v t -> vin lo (sb q) v -> bind_ty pt t te = Some te' ->
    exists e', bind_pat pt v e = Some e' /\ env_ok toks lo e' te' q /\
      forall p0 tags tg, tags_ok toks p0 tags e -> (tg = true -> starts toks p0 v) ->
        tags_ok toks p0 (tag_pat pt tg tags) e'.
  Proof.
    induction pt as [x|a IHa b IHb]; intros e te p t v q te' E Vp Vq L H I B.
    - cbn [bind_ty] in B. destruct (nopoint t) eqn:N; [|discriminate]. injection B as <-.
      cbn [bind_pat]. eexists. split; [reflexivity|]. split.
      + eapply env_cons; eauto. intros r Hr. exfalso. eapply nopoint_not_point; eauto.
      + intros p0 tags tg TO S. cbn [tag_pat]. apply tags_cons; auto.
    - cbn [bind_ty] in B. destruct t; try discriminate.
      destruct (bind_ty a t1 te) as [te1|] eqn:B1; [|discriminate].
      destruct (holds_pair _ _ _ H) as (x & y & -> & Hx & Hy). apply vin_pair in I. destruct I as [Ix Iy].
      destruct (IHa e te p t1 x q te1 E Vp Vq L Hx Ix B1) as (e1 & E1 & O1 & T1).
      destruct (IHb e1 te1 q t2 y q te' O1 Vq Vq (le_n _) Hy Iy B) as (e2 & E2 & O2 & T2).
      exists e2. cbn [bind_pat]. rewrite E1. split; [auto|]. split; [auto|].
      intros p0 tags tg TO S. cbn [tag_pat]. apply T2; [|discriminate]. apply T1; [auto|discriminate].
  Qed.

  Definition run_spec (n : nat) : Prop :=
    forall x te t clean, tsafe clean x = true -> ginfer te x = Some t ->
    forall lo e p, env_ok toks lo e te p -> valid p -> (clean = true -> sub p = None) ->
      tld x + K * rem p <= n ->
      okp lo t (gfl x) (run table toks n x e) p.

  Definition fl_steps (steps : list (pat * g)) : flags :=
    mkF (existsb (fun s => tprog (snd s)) steps) (existsb (fun s => tadv (snd s)) steps) false
        (existsb (fun s => tpk (snd s)) steps).

  Lemma run_steps_ok n b : run_spec n ->
    forall steps te t clean, safe_steps tsafe steps clean = true ->
    infer_steps ginfer b steps te = Some t ->
    forall lo e p, env_ok toks lo e te p -> valid p -> (clean = true -> sub p = None) ->
    ld_steps np tld steps + K * rem p <= n ->
    forall p0 here tags, tags_ok toks p0 tags e -> (here = true -> p = p0) ->
    forall pm, pm_ok toks pm ->
      match run_steps toks (run table toks n) steps b e pm p with
      | (pm', Success q v) => pm_ok toks pm' /\ m_state pm' = m_state pm /\
          good toks lo t (fl_steps steps) p q v /\
          (xs_steps txs b steps here tags = true -> starts toks p0 v)
      | (pm', Failure q _) => pm_ok toks pm' /\ m_state pm' = m_state pm /\ valid q /\ pos p <= pos q
      | (_, Abort _) => False
      end.
  Proof.
    intros IH steps. induction steps as [|[pt y] steps IHs];
      intros te t clean S T lo e p E V C N p0 here tags TO HE pm Hpm.
    - cbn [run_steps]. cbn [infer_steps] in T.
      destruct (beval_ok _ WF lo e te p b t E V T) as (v & -> & Hv & Iv & Sv).
      split; [auto|]. split; [auto|]. split.
      + constructor; auto; discriminate.
      + cbn [xs_steps]. intros X. eauto.
    - cbn [run_steps]. cbn [infer_steps] in T. cbn [safe_steps] in S. cbn [ld_steps] in N.
      apply andb_true_iff in S. destruct S as [S1 S2].
      pose proof (tsafe_ld _ _ S1) as LK. pose proof (ld_steps_le _ _ S2) as LS.
      assert (forall q te' e' pm1 fl,
        valid q -> pos p <= pos q -> env_ok toks lo e' te' q -> infer_steps ginfer b steps te' = Some t ->
        (here && is_gpoint y = true -> q = p0) -> (next_clean clean y = true -> sub q = None) ->
        tags_ok toks p0 (tag_pat pt (here && txs y) tags) e' ->
        (tprog y = true -> pos p < pos q) -> (tadv y = true -> off p < off q) ->
        (tpk y = true -> pos p = pos q -> semi toks p) ->
        pm_ok toks pm1 -> m_state pm1 = m_state pm -> fl = fl_steps ((pt, y) :: steps) ->
        match run_steps toks (run table toks n) steps b e' pm1 q with
        | (pm', Success r v) => pm_ok toks pm' /\ m_state pm' = m_state pm /\
            good toks lo t fl p r v /\
            (xs_steps txs b ((pt, y) :: steps) here tags = true -> starts toks p0 v)
        | (pm', Failure q _) => pm_ok toks pm' /\ m_state pm' = m_state pm /\ valid q /\ pos p <= pos q
        | (_, Abort _) => False
        end) as Next.
      { intros q te' e' pm1 fl Vq Lq E' T' HP HC TO' HPR HAD HPK P1 St1 ->.
        assert (ld_steps np tld steps + K * rem q <= n) as N'.
        { destruct (tprog y) eqn:PY; unfold tprog in PY; rewrite PY in N.
          - specialize (HPR eq_refl). pose proof (krem_lt _ _ V HPR). lia.
          - pose proof (krem_le _ _ Lq). lia. }
        specialize (IHs te' t (next_clean clean y) S2 T' lo e' q E' Vq HC N' p0 (here && is_gpoint y)
                        (tag_pat pt (here && txs y) tags) TO' HP pm1 P1).
        destruct (run_steps toks (run table toks n) steps b e' pm1 q) as [pm2 [r v|r err|w]]; auto.
        - destruct IHs as (P2 & S3 & G & X). split; [auto|]. split; [congruence|]. split.
          + apply (good_trans lo t (fl_steps steps) _ p q r v V Vq Lq G);
              cbn [fp fa fx fk fl_steps existsb snd]; try discriminate.
            * intros F. apply orb_true_iff in F. destruct F; auto.
            * intros F. apply orb_true_iff in F. destruct F; auto.
            * intros F EQ. destruct G. apply orb_true_iff in F. destruct F as [F|F].
              -- apply HPK; auto. lia.
              -- assert (p = q) by (eapply pos_inj; eauto; lia). subst q. apply g_peek; auto.
          + cbn [xs_steps]. auto.
        - destruct IHs as (P2 & S3 & Vr & Lr). split; [auto|]. split; [congruence|]. split; [auto|lia]. }
      destruct (is_gpoint y) eqn:GP.
      + destruct y; try discriminate. destruct pt as [x|]; [|discriminate].
        destruct n as [|n]; [unfold tld in N; cbn [ld prog] in N; exfalso; lia|]. cbn [run]. cbn [bind_pat].
        apply (Next p ((x, TPoint) :: te)); auto; try discriminate.
        * eapply env_cons; eauto.
          -- apply holds_point.
          -- constructor.
          -- intros q [= <-]. pose proof (env_lo _ WF _ _ _ _ E V). auto.
        * intros F. apply andb_true_iff in F. destruct F. auto.
        * cbn [tag_pat]. apply tags_cons; auto. intros F. apply andb_true_iff in F. destruct F as [F _].
          rewrite <- (HE F). apply starts_point.
      + destruct (ginfer te y) as [u|] eqn:Tu; [|discriminate].
        destruct (bind_ty pt u te) as [te'|] eqn:BT; [|discriminate].
        assert (tld y + K * rem p <= n) as NY by lia.
        pose proof (IH y te u clean S1 Tu lo e p E V C NY pm Hpm) as H.
        assert (forall m er pm' q v, y = GTok m er -> run table toks n y e pm p = (pm', Success q v) ->
                  whole_matcher m = true -> sub q = None) as CL.
        { intros m er pm' q v -> R W. destruct n as [|n]; [cbn in R; discriminate|]. cbn [run] in R.
          unfold tsafe in S1. cbn [gsafe] in S1. apply andb_true_iff in S1. destruct S1 as [_ S1].
          pose proof (tok_ok _ WF m er pm p V S1) as TK. rewrite R in TK. destruct TK as [_ TK].
          destruct TK. destruct (tks_whole W). auto. }
        destruct (run table toks n y e pm p) as [pm1 [q v|q err|w]] eqn:R; auto.
        destruct H as (P1 & S1' & G). pose proof G as G'. destruct G'. cbn [fp fa fx fk gfl] in *.
        destruct (bind_pat_ok lo pt e te p u v q te' E V g_valid g_pos g_holds g_in BT) as (e' & B1 & B2 & B3).
        rewrite B1. apply (Next q te'); auto.
        * rewrite andb_false_r. discriminate.
        * intros NC. destruct y; try discriminate. eapply CL; eauto.
        * apply B3; auto. intros X. apply andb_true_iff in X. destruct X as [X1 X2].
          specialize (HE X1). subst p0. apply g_starts. exact X2.
  Qed.

  Lemma alternate_ok lo t fl ps p : valid p -> Forall (fun f => okp lo t fl f p) ps ->
    forall cur (pm0 pm : pm_t), pm_ok toks pm -> m_state pm = m_state pm0 ->
    match cur with
    | Success q v => good toks lo t fl p q v
    | Failure q _ => valid q /\ pos p <= pos q
    | Abort _ => False
    end ->
    match alternate_from pt_lt recov cur ps pm p with
    | (pm', Success q v) => pm_ok toks pm' /\ m_state pm' = m_state pm0 /\ good toks lo t fl p q v
    | (pm', Failure q _) => pm_ok toks pm' /\ m_state pm' = m_state pm0 /\ valid q /\ pos p <= pos q
    | (_, Abort _) => False
    end.
  Proof.
    intros V F. induction F as [|f ps Hf F IH]; intros cur pm0 pm Hpm Hs Hc; cbn [alternate_from].
    - destruct cur; auto.
    - destruct cur as [q v|q e|w]; auto. cbn [recov].
      specialize (Hf pm Hpm). destruct Hc as [Vq Lq]. destruct (f pm p) as [pm1 r].
      apply IH.
      + apply pm_record; auto. destruct r; tauto.
      + cbn [record_failure m_state]. destruct r; intuition congruence.
      + destruct r; tauto.
  Qed.

  Lemma fl_le_gfl (fl : flags) x :
    (fp fl = true -> tprog x = true) -> (fa fl = true -> tadv x = true) ->
    (fx fl = true -> txs x = true) -> (fk fl = true -> tpk x = true) -> fl_le fl (gfl x).
  Proof. intros. repeat split; auto. Qed.

  (** Pulling a side condition out of [tsafe]. *)
  Ltac safe_inv H :=
    unfold tsafe in H; cbn [gsafe] in H; apply andb_true_iff in H; destruct H as [_ H];
    repeat match type of H with
           | _ && _ = true => let H' := fresh H in apply andb_true_iff in H; destruct H as [H H']
           end;
    fold tprog in *; fold tpk in *.

  Theorem run_ok n : run_spec n.
  Proof.
    induction n as [|n IH]; intros x te t clean S T lo e p E V C N.
    { exfalso. destruct x; unfold tld in N; cbn [ld] in N; lia. }
    pose proof (env_lo _ WF _ _ _ _ E V) as LO.
    assert (forall y u cl, tsafe cl y = true -> (cl = true -> sub p = None) -> ginfer te y = Some u -> tld y < tld x ->
              okp lo u (gfl y) (run table toks n y e) p) as Here.
    { intros y u cl Sy Cy Ty Ly. eapply IH; eauto. lia. }
    assert (forall y u, tsafe false y = true -> ginfer te y = Some u ->
              forall q, valid q -> pos p < pos q -> okp lo u (gfl y) (run table toks n y e) q) as After.
    { intros y u Sy Ty q Vq Lq. eapply IH; eauto.
      - eapply env_weaken; eauto. lia.
      - discriminate.
      - apply tsafe_ld in Sy. pose proof (krem_lt _ _ V Lq).
        assert (1 <= tld x) by (destruct x; unfold tld; cbn [ld]; lia). lia. }
    assert (forall y u, tsafe false y = true -> ginfer te y = Some u -> tld y < tld x ->
              forall q, valid q -> pos p <= pos q -> okp lo u (gfl y) (run table toks n y e) q) as From.
    { intros y u Sy Ty Ly q Vq Lq. eapply IH; eauto.
      - eapply env_weaken; eauto.
      - discriminate.
      - pose proof (krem_le _ _ Lq). lia. }
    assert (rem p <= n) as RN.
    { assert (1 <= tld x) by (destruct x; unfold tld; cbn [ld]; lia). pose proof K_pos. nia. }
    destruct x as [m err|nn| |steps b|gs|y|y|app sep f|sep f|sep f|sep f|o c|y|y|y err|y err|l y|err y|a b|stmt];
      cbn [ginfer] in T.
    - (* GTok *) injection T as <-. safe_inv S.
      eapply okp_flags; [apply (tok_okp _ WF m err lo p V S LO)|]. apply (conj (fun _ => eq_refl)).
      repeat split; auto.
    - (* GNT *) injection T as <-.
      destruct (nt_facts_all nn). destruct nf_ty0 as (u & U1 & U2).
      assert (okp (sb p) u (gfl (table nn)) (run table toks n (table nn) []) p) as H.
      { apply (IH (table nn) [] u false); auto.
        - constructor. lia.
        - discriminate.
        - unfold tld in N. cbn [ld] in N. lia. }
      intros pm Hpm. cbn [run]. specialize (H pm Hpm).
      destruct (run table toks n (table nn) [] pm p) as [pm' [q v|q er|w]]; auto.
      destruct H as (A & B & G). split; [auto|]. split; [auto|]. destruct G. constructor; auto.
      + eapply holds_le; eauto.
      + eapply vin_weaken; [exact LO| |exact g_in]. lia.
    - (* GPoint *) injection T as <-. intros pm Hpm. cbn [run]. split; [auto|]. split; [auto|].
      constructor; auto; try discriminate.
      + apply holds_point.
      + constructor.
      + intros _. apply starts_point.
    - (* GSeq *) safe_inv S. intros pm Hpm. cbn [run].
      unfold tld in N. cbn [ld] in N. fold tld in N.
      pose proof (run_steps_ok n b IH steps te t clean S T lo e p E V C ltac:(lia) p true []
                    (tags_nil _ _ _) (fun _ => eq_refl) pm Hpm) as H.
      destruct (run_steps toks (run table toks n) steps b e pm p) as [pm' [q v|q er|w]]; auto.
      destruct H as (A & B & G & X). split; [auto|]. split; [auto|]. destruct G. constructor; auto.
    - (* GAlt *) unfold tsafe in S. cbn [gsafe] in S. apply andb_true_iff in S. destruct S as [_ S].
      destruct gs as [|y gs]; [discriminate|]. fold tsafe in S.
      assert (forall z, In z (y :: gs) -> okp lo t (gfl (GAlt (y :: gs))) (run table toks n z e) p) as H.
      { intros z Hz. destruct (infer_alts_in _ _ _ _ T z Hz) as (u & U1 & U2).
        assert (tsafe false z = true) as Sz.
        { rewrite forallb_forall in S. apply S. exact Hz. }
        eapply okp_flags; [eapply okp_le; [apply (Here z u false); auto; try discriminate|exact U2]|].
        - assert (tld z <= fold_right (fun y n => Nat.max (tld y) n) 0 (y :: gs)) by (apply alts_ld; auto).
          change (tld z < Datatypes.S (fold_right (fun y n => Nat.max (tld y) n) 0 (y :: gs))). lia.
        - apply fl_le_gfl; cbn [gfl fp fa fx fk]; intros F.
          + change (forallb tprog (y :: gs) = true) in F. rewrite forallb_forall in F. auto.
          + change (forallb tadv (y :: gs) = true) in F. rewrite forallb_forall in F. auto.
          + change (forallb txs (y :: gs) = true) in F. rewrite forallb_forall in F. auto.
          + change (forallb tpk (y :: gs) = true) in F. rewrite forallb_forall in F. auto. }
      intros pm Hpm. cbn [run map alternate].
      pose proof (H y (or_introl eq_refl) pm Hpm) as Hy.
      destruct (run table toks n y e pm p) as [pm1 r].
      apply alternate_ok.
      + exact V.
      + rewrite Forall_forall. intros f Hf. apply in_map_iff in Hf. destruct Hf as (z & <- & Hz).
        apply H. right. exact Hz.
      + destruct r; tauto.
      + destruct r; tauto.
      + destruct r; tauto.
    - (* GOpt *) safe_inv S. destruct (ginfer te y) as [u|] eqn:U; [|discriminate]. injection T as <-.
      pose proof (Here y u false S ltac:(discriminate) U ltac:(unfold tld; cbn [ld]; lia)) as H.
      intros pm Hpm. cbn [run]. unfold map_p, optional. specialize (H pm Hpm).
      destruct (run table toks n y e pm p) as [pm' [q v|q er|w]]; auto.
      + destruct H as (A & B & G). split; [auto|]. split; [auto|]. destruct G.
        constructor; auto; try discriminate.
        * now apply holds_some.
        * intros _. apply starts_simple; discriminate || reflexivity.
      + cbn [recov]. destruct H as (A & B & Vq & Lq). split; [now apply pm_record|]. split; [exact B|].
        constructor; auto; try discriminate.
        * apply holds_none.
        * constructor.
        * intros _. apply starts_simple; discriminate || reflexivity.
    - (* GMany *) safe_inv S. destruct (ginfer te y) as [u|] eqn:U; [|discriminate]. injection T as <-.
      assert (rem p < n) as RN'.
      { unfold tld in N. cbn [ld] in N. assert (1 <= ld np ldn y) by (destruct y; cbn [ld]; lia).
        pose proof K_pos. nia. }
      intros pm Hpm. cbn [run]. unfold map_p.
      pose proof (many_ok _ WF lo u (gfl y) (run table toks n y e) p S0 n
                    (From y u S U ltac:(unfold tld; cbn [ld]; lia)) V LO RN' pm Hpm) as H.
      destruct (zero_or_more pt_lt recov n (run table toks n y e) pm p) as [pm' [q l|q er|w]]; auto; [|tauto].
      destruct H as (A & B & Vq & Lq & Tl & Il). split; [auto|]. split; [auto|].
      constructor; auto; try discriminate.
      + now apply holds_vlist.
      + now apply vin_list.
      + intros _. apply starts_list.
    - (* GTailed *) safe_inv S.
      destruct (binfer te app) as [ta|] eqn:TA; [|discriminate]. destruct ta; try discriminate.
      destruct (ginfer te sep) as [ts|] eqn:TS; [|discriminate].
      destruct (ginfer te f) as [tf|] eqn:TF; [|discriminate].
      destruct (join ta tf) as [tj|] eqn:J; [|discriminate]. injection T as <-.
      apply join_ub in J. destruct J as [J1 J2].
      destruct (beval_ok _ WF lo e te p app _ E V TA) as (va & EA & HA & IA & _).
      destruct (holds_list _ _ HA) as (l & -> & Hl).
      intros pm Hpm. cbn [run]. rewrite EA.
      assert (rem p < n) as RN'.
      { unfold tld in N. cbn [ld] in N. assert (1 <= ld np ldn f) by (destruct f; cbn [ld]; lia).
        pose proof K_pos. nia. }
      pose proof (tailed_ok _ WF lo tj (gfl f) ts (gfl sep) (run table toks n f e) (run table toks n sep e) n S0 p) as H.
      assert (okp lo (tailed_ty tj) fl_list (tailed_loop n (run table toks n sep e) (run table toks n f e) l 0 false) p) as H2.
      { apply H; auto.
        - intros q Vq Lq. eapply okp_le; [|exact J2]. apply From; auto. unfold tld. cbn [ld]. lia.
        - intros v Hv. eapply holds_le; [|exact J1]. auto.
        - intros v Hv. eapply vin_in; eauto. }
      exact (H2 pm Hpm).
    - (* GTailed1 *) safe_inv S.
      destruct (ginfer te sep) as [ts|] eqn:TS; [|discriminate].
      destruct (ginfer te f) as [tf|] eqn:TF; [|discriminate]. injection T as <-.
      pose proof (tailed1_ok _ WF lo tf (gfl f) ts (gfl sep) (run table toks n f e) (run table toks n sep e) n S0 p
                    (From f tf S1 TF ltac:(unfold tld; cbn [ld]; lia)) (After sep ts S TS) V RN) as H.
      intros pm Hpm. exact (H pm Hpm).
    - (* GResume *) safe_inv S.
      destruct (ginfer te sep) as [ts|] eqn:TS; [|discriminate].
      destruct (ginfer te f) as [tf|] eqn:TF; [|discriminate]. injection T as <-.
      pose proof (resume_ok _ WF lo tf (gfl f) ts (gfl sep) (run table toks n f e) (run table toks n sep e) n S0 S1 p
                    (After f tf S2 TF) (From sep ts S TS ltac:(unfold tld; cbn [ld]; lia)) V RN) as H.
      intros pm Hpm. exact (H pm Hpm).
    - (* GImplicit *) unfold tsafe in S. cbn [gsafe] in S. apply andb_true_iff in S. destruct S as [_ S].
      apply andb_true_iff in S. destruct S as [S S1]. apply andb_true_iff in S. destruct S as [S S0].
      destruct (ginfer te sep) as [ts|] eqn:TS; [|discriminate].
      destruct (ginfer te f) as [tf|] eqn:TF; [|discriminate]. injection T as <-.
      assert (rem p < n) as RN'.
      { unfold tld in N. cbn [ld] in N. assert (1 <= ld np ldn f) by (destruct f; cbn [ld]; lia).
        pose proof K_pos. nia. }
      assert (okp lo (tailed_ty tf) fl_list (implicit_loop n (run table toks n sep e) (run table toks n f e) [] 0 false) p) as H.
      { apply (implicit_ok _ WF lo tf (gfl f) ts (gfl sep)); auto.
        - apply orb_true_iff in S1. destruct S1 as [S1|S1]; [left; exact S1|right].
          apply andb_true_iff in S1. destruct S1 as [S1 S2]. split; [exact S1|].
          destruct sep as [m err| | | | | | | | | | | | | | | | | | |]; try discriminate. destruct m as [k|]; try discriminate. destruct k; try discriminate.
          exists err. intros pm q. destruct n; [lia|]. reflexivity.
        - apply From; auto. unfold tld. cbn [ld]. lia.
        - intros q Vq Lq PQ. destruct (tprog f) eqn:PX.
          + apply After; auto.
          + apply From; auto. unfold tld. cbn [ld]. unfold tprog in PX. rewrite PX. lia.
        - intros v [].
        - intros v []. }
      intros pm Hpm. exact (H pm Hpm).
    - (* GNested *) safe_inv S. injection T as <-. intros pm Hpm. cbn [run].
      destruct (nested_ok _ WF o c pm p V (C S)) as (q & r & -> & Vq & Lq & _ & F & I).
      split; [auto|]. split; [auto|]. constructor; auto; try discriminate.
      + apply holds_ext.
      + apply vin_ext. eapply inside_weaken; [| |exact I]; lia.
      + intros _. now apply starts_ext.
    - (* GExt *) safe_inv S. destruct (ginfer te y) as [u|] eqn:U; [|discriminate]. injection T as <-.
      pose proof (Here y u false S ltac:(discriminate) U ltac:(unfold tld; cbn [ld]; lia)) as H.
      intros pm Hpm. cbn [run]. specialize (H pm Hpm).
      destruct (run table toks n y e pm p) as [pm' [q v|q er|w]]; auto.
      destruct H as (A & B & G). destruct G.
      destruct (ex_ok _ WF p q V g_valid g_pos) as (r & -> & R1 & R2 & R3).
      split; [auto|]. split; [auto|]. constructor; auto.
      + apply holds_ext.
      + apply vin_ext. unfold inside. lia.
      + intros _. now apply starts_ext.
    - (* GPeek *) safe_inv S. destruct (ginfer te y) as [u|] eqn:U; [|discriminate]. injection T as <-.
      pose proof (Here y u false S ltac:(discriminate) U ltac:(unfold tld; cbn [ld]; lia)) as H.
      intros pm Hpm. cbn [run]. unfold map_p, peek. specialize (H pm Hpm).
      destruct (run table toks n y e pm p) as [pm' [q v|q er|w]] eqn:R; auto.
      + destruct H as (A & B & G). split; [auto|]. split; [auto|].
        constructor; auto; try discriminate.
        * apply holds_unit.
        * constructor.
        * intros _. apply starts_simple; discriminate || reflexivity.
        * intros F _. unfold gfl in F. cbn [fk] in F. unfold tpk in F.
          destruct y as [m err| | | | | | | | | | | | | | | | | | |]; try discriminate. cbn [pk] in F.
          destruct m as [k|]; try discriminate. destruct k; try discriminate.
          destruct n as [|n]; [discriminate|]. cbn [run] in R.
          exists q, v. intros e' pm2. eapply tok_indep; exact R.
      + destruct H as (A & B & _). auto.
    - (* GMapErr *) safe_inv S.
      pose proof (Here y t false S ltac:(discriminate) T ltac:(unfold tld; cbn [ld]; lia)) as H.
      intros pm Hpm. cbn [run]. specialize (H pm Hpm).
      destruct (run table toks n y e pm p) as [pm' [q v|q er|w]]; auto.
    - (* GSimple *) safe_inv S.
      destruct (ginfer te y) as [u|] eqn:U; [|discriminate]. destruct u; try discriminate. injection T as <-.
      pose proof (Here y _ false S ltac:(discriminate) U ltac:(unfold tld; cbn [ld]; lia)) as H.
      intros pm Hpm. cbn [run]. specialize (H pm Hpm).
      destruct (run table toks n y e pm p) as [pm' [q v|q er|w]]; auto.
      destruct H as (A & B & G). destruct G.
      destruct (holds_num_inv _ g_holds) as [nb ->].
      destruct (into_simple nb) as [r|] eqn:IS.
      + assert (r = n_extent nb) as ->.
        { unfold into_simple in IS. destruct (n_radix nb), (n_fractional nb), (n_exponent nb), (n_type_suffix nb), (n_underscores nb);
            congruence. }
        split; [auto|]. split; [auto|]. constructor; auto.
        * apply holds_ext.
        * apply vin_ext. unfold vin in g_in. cbn [extents number_extents] in g_in. inversion g_in; auto.
        * intros F. destruct (g_starts F) as (_ & G2 & _). apply starts_ext. auto.
      + auto.
    - (* GAmb *) safe_inv S.
      pose proof (Here y t false S ltac:(discriminate) T ltac:(unfold tld; cbn [ld]; lia)) as H.
      intros pm Hpm. cbn [run]. unfold with_amb. specialize (H (set_amb pm l) Hpm).
      destruct (run table toks n y e (set_amb pm l) p) as [pm' [q v|q er|w]]; auto.
      + destruct H as (A & _ & G). auto.
      + destruct H as (A & _ & G). auto.
    - (* GIfMax *) safe_inv S.
      pose proof (Here y t false S ltac:(discriminate) T ltac:(unfold tld; cbn [ld]; lia)) as H.
      intros pm Hpm. cbn [run]. destruct (is_maximum (m_state pm)); [auto|]. exact (H pm Hpm).
    - (* GIfAmb *) safe_inv S. unfold join_o in T.
      destruct (ginfer te a) as [t1|] eqn:T1; [|discriminate].
      destruct (ginfer te b) as [t2|] eqn:T2; [|discriminate].
      apply join_ub in T. destruct T as [J1 J2].
      assert (okp lo t (gfl (GIfAmb a b)) (run table toks n a e) p) as H1.
      { eapply okp_flags; [eapply okp_le; [apply (Here a t1 false); auto; try discriminate; unfold tld; cbn [ld]; lia|exact J1]|].
        apply fl_le_gfl; cbn [gfl fp fa fx fk]; intros FF; apply andb_true_iff in FF; tauto. }
      assert (okp lo t (gfl (GIfAmb a b)) (run table toks n b e) p) as H2.
      { eapply okp_flags; [eapply okp_le; [apply (Here b t2 false); auto; try discriminate; unfold tld; cbn [ld]; lia|exact J2]|].
        apply fl_le_gfl; cbn [gfl fp fa fx fk]; intros FF; apply andb_true_iff in FF; tauto. }
      intros pm Hpm. cbn [run]. destruct (is_ambiguous (m_state pm)); [exact (H1 pm Hpm)|exact (H2 pm Hpm)].
    - (* GShunt *) injection T as <-. intros pm Hpm. cbn [run].
      unfold tld in N. cbn [ld] in N.
      assert (forall m q, valid q -> pos p < pos q ->
        okp (sb q) (nt_type m) (gfl (GNT m)) (run table toks n (GNT m) []) q) as Gt.
      { intros m q Vq Lq. apply (IH (GNT m) [] (nt_type m) false); auto; try discriminate.
        - unfold tsafe. cbn [gsafe ld]. rewrite andb_true_r. apply Nat.leb_le. apply ldn_K.
        - constructor. lia.
        - unfold tld. cbn [ld]. pose proof (ldn_K m). pose proof (krem_lt _ _ V Lq). lia. }
      assert (forall q, valid q -> pos p <= pos q ->
        okp (sb q) (TN "PrefixOrAtom") (gfl (GNT N_expression_prefix_or_atom))
          (run table toks n (GNT N_expression_prefix_or_atom) []) q) as Gp.
      { intros q Vq Lq. apply (IH (GNT N_expression_prefix_or_atom) [] _ false); auto; try discriminate.
        - constructor. lia.
        - unfold tld. cbn [ld]. pose proof (krem_le _ _ Lq). lia. }
      assert (rem p < n) as RN' by (pose proof K_pos; nia).
      pose proof (shunt_ok _ WF stmt (run table toks n (GNT N_expression_prefix_or_atom) [])
        (run table toks n (GNT N_expression_infix_or_postfix) [])
        (run table toks n (GNT N_operator_postfix_limited) []) p V) as H.
      assert (forall m, fl_le (mkF (np m) false (nx m) false) (gfl (GNT m))) as FL.
      { intros m. repeat split; auto; discriminate. }
      specialize (H (fun q Vq Lq => okp_flags _ _ _ _ _ _ _ (Gp q Vq Lq) (FL _))).
      assert (forall m, fl_le (mkF (np m) false false false) (gfl (GNT m))) as FL'.
      { intros m. repeat split; auto; discriminate. }
      specialize (H (fun q Vq Lq => okp_flags _ _ _ _ _ _ _ (Gt N_expression_infix_or_postfix q Vq Lq) (FL' _))).
      specialize (H (fun q Vq Lq => okp_flags _ _ _ _ _ _ _ (Gt N_operator_postfix_limited q Vq Lq) (FL' _))).
      specialize (H n (mkYard [] []) SPrefix p (yo_prefix _ _ _ _ _ (pend_start _ p)) RN' pm Hpm).
      match goal with |- match ?r with _ => _ end => destruct r as [pm' [q v|q er|w]] end; auto.
      destruct H as (A & B & G). split; [auto|]. split; [auto|]. destruct G. constructor; auto; try discriminate.
      eapply vin_weaken; [exact LO| |exact g_in]. lia.
  Qed.
End RunOk.
