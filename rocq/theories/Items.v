(** The item loop of [parse_rust_file]: it ends, it partitions the tokens, and
    what it returns is well typed and in bounds. *)

From Coq Require Import String List Arith Bool Lia.
From Verif Require Import Base Peresil Token Tokenizer TokenizerSpec.
From Verif Require Import Schema Value Nt Grammar Points Table Static Typing Safety Yard RunOk Ends Apportion Lib FileToks.
Import ListNotations.
Local Open Scope string_scope.
Local Open Scope list_scope.
Local Open Scope nat_scope.

(** From token [o] on, the items cover consecutive non-empty runs of tokens up
    to the end of file. *)
Inductive covers (toks : list token) : nat -> list val -> Prop :=
| cov_end o e : nth_error toks o = Some (Tk KEndOfFile e) -> covers toks o []
| cov_item o o' first last v items :
    o < o' -> nth_error toks o = Some first -> nth_error toks (o' - 1) = Some last ->
    extent_of v = Some (fst (token_extent first), snd (token_extent last)) ->
    covers toks o' items -> covers toks o (v :: items).

Section Items.
  Variable toks : list token.
  Hypothesis WF : wf_toks toks.

  Lemma fuel_enough x p : tsafe false x = true -> valid toks p ->
    tld x + K * rem toks p <= parse_fuel (List.length toks).
  Proof.
    intros S V. apply tsafe_ld in S. unfold parse_fuel, rem.
    assert (K <= 100) by (unfold K; lia). nia.
  Qed.

  Lemma run_table_ok x t : tsafe false x = true -> ginfer [] x = Some t ->
    forall p, valid toks p ->
    okp toks (sb toks p) t (gfl x) (run table toks (parse_fuel (List.length toks)) x []) p.
  Proof.
    intros S T p V. apply (run_ok _ WF _ x [] t false); auto.
    - constructor. lia.
    - discriminate.
    - now apply fuel_enough.
  Qed.

  Lemma attributed_ends n t x e pm p pm' q v :
    run table toks n (attributed t x) e pm p = (pm', Success q v) ->
    exists r attrs w, v = VNode ("Attributed<" ++ t ++ ">")%string [VExt r; attrs; w; VList []] /\
      ex toks p q = BOk r.
  Proof.
    destruct n as [|n]; [discriminate|]. unfold attributed. cbn [run run_steps].
    destruct n as [|n]; [discriminate|].
    change (run table toks (S n) GPoint e pm p) with (pm, Success p (VPoint p) : progress point val perror).
    cbv iota beta. cbn [bind_pat].
    destruct (run table toks (S n) (GMany _) _ pm p) as [pm1 [q1 v1|q1 e1|w1]]; try discriminate.
    cbn [bind_pat].
    destruct (run table toks (S n) x _ pm1 q1) as [pm2 [q2 v2|q2 e2|w2]]; try discriminate.
    cbn [bind_pat beval]. cbn [assoc String.eqb Ascii.eqb Bool.eqb as_point bbind].
    destruct (ex toks p q2) as [r|w] eqn:E; [|discriminate]. cbn [bbind].
    intros [= <- <- <-]. eauto 6.
  Qed.

  Lemma item_ok p pm : valid toks p -> pm_ok toks pm -> sub p = None ->
    match run table toks (parse_fuel (List.length toks)) item_grammar [] pm p with
    | (pm', Success q v) => pm_ok toks pm' /\ m_state pm' = m_state pm /\ valid toks q /\ off p < off q /\
        sub q = None /\
        typed v (TN "Attributed<Item>") /\ vin (sb toks p) (sb toks q) v /\
        exists first last, nth_error toks (off p) = Some first /\ nth_error toks (off q - 1) = Some last /\
          extent_of v = Some (fst (token_extent first), snd (token_extent last))
    | (pm', Failure q _) => pm_ok toks pm' /\ m_state pm' = m_state pm /\ valid toks q /\ pos p <= pos q
    | (_, Abort _) => False
    end.
  Proof.
    intros V Hpm SN.
    pose proof (run_table_ok item_grammar (TN "Attributed<Item>") eq_refl eq_refl p V pm Hpm) as H.
    pose proof (fun pm' q v => attributed_ends (parse_fuel (List.length toks)) "Item" (GNT N_item) [] pm p pm' q v) as A.
    pose proof (fun pm' q v => ends_ok toks (parse_fuel (List.length toks)) item_grammar true [] pm p pm' q v eq_refl
                   (fun _ => SN)) as E.
    change (attributed "Item" (GNT N_item)) with item_grammar in A.
    destruct (run table toks (parse_fuel (List.length toks)) item_grammar [] pm p) as [pm' [q v|q e|w]]; auto.
    destruct H as (P1 & S1 & G). destruct G. cbn [fp fa fx fk gfl] in *.
    assert (off p < off q) as L by (apply g_adv; reflexivity).
    specialize (A pm' q v eq_refl). specialize (E pm' q v eq_refl).
    split; [auto|]. split; [auto|]. split; [auto|]. split; [auto|]. split; [auto|].
    split; [now apply holds_typed in g_holds|]. split; [auto|].
    destruct A as (r & attrs & w & -> & X). destruct V as (first & F & _).
    unfold ex in X. rewrite F in X.
    assert (off p ?= off q = Lt) as C by (now apply Nat.compare_lt_iff). rewrite C in X.
    destruct (nth_error toks (off q - 1)) as [last|] eqn:L'; [|discriminate].
    exists first, last. split; [auto|]. split; [auto|]. injection X as <-. cbn [extent_of].
    unfold start_offset. rewrite SN, E. cbn [sub_rank]. now rewrite !Nat.add_0_r.
  Qed.

  Lemma pm_ok_new s : pm_ok toks (new_master pt_zero s).
  Proof. split; [apply valid_zero; auto|auto]. Qed.

  Lemma sb_le hi p : Forall (tok_within 0 hi) toks -> valid toks p -> sb toks p <= hi.
  Proof.
    intros W V. pose proof V as V'. destruct V' as (t & H & _). pose proof (rank_le _ WF p t H V) as R.
    unfold sb. rewrite H. rewrite Forall_forall in W. apply nth_error_In in H. destruct (W t H). lia.
  Qed.

  Lemma items_loop_ok hi : Forall (tok_within 0 hi) toks ->
    forall n pm p, valid toks p -> sub p = None -> pm_ok toks pm ->
    List.length toks <= off p + n ->
    match items_loop toks (S n) pm p with
    | ItemsOk items => covers toks (off p) items /\
        Forall (fun v => typed v (TN "Attributed<Item>")) items /\ Forall (vin (sb toks p) hi) items
    | ItemsErr loc errs => errs <> [] /\
        exists i t, off p <= i /\ nth_error toks i = Some t /\ loc = fst (token_extent t)
    | ItemsAbort _ => False
    end.
  Proof.
    intros W n. induction n as [|n IH]; intros pm p V SN Hpm L.
    { pose proof (valid_lt _ _ V). lia. }
    remember (S n) as m. cbn [items_loop].
    pose proof V as V'. destruct V' as (t & T & _). rewrite T.
    destruct (is_kind KEndOfFile t) eqn:EOF.
    - split; [|split; constructor]. destruct t as [k e|]; [|discriminate].
      cbn [is_kind] in EOF. apply tkind_eqb_eq in EOF. subst k. econstructor; eauto.
    - pose proof (item_ok p pm V Hpm SN) as H.
      destruct (run table toks (parse_fuel (List.length toks)) item_grammar [] pm p) as [pm1 [q v|q e|w]]; [| |tauto];
        cbn [finish].
      + destruct H as (P1 & _ & Vq & Lq & Sq & Tv & Iv & first & last & F1 & F2 & F3).
        rewrite (proj2 (Nat.ltb_lt _ _) Lq). subst m.
        specialize (IH pm1 q Vq Sq P1 ltac:(lia)).
        destruct (items_loop toks (S n) pm1 q) as [items|loc errs|w]; auto.
        * destruct IH as (C & Ty & In'). split; [econstructor; eauto|]. split; [now constructor|].
          pose proof (sb_le hi q W Vq). constructor.
          -- eapply vin_weaken; [| |exact Iv]; lia.
          -- eapply Forall_impl; [|exact In']. intros u. apply vin_weaken; [|lia].
             apply sb_mono; auto. unfold pos. rewrite SN, Sq. cbn [sub_rank]. lia.
        * destruct IH as (NE & i & u & Li & Hi & ->). split; [auto|]. exists i, u. split; [lia|auto].
      + destruct H as (P1 & _ & Vq & Lq).
        set (f := add_failure pt_lt (m_failures pm1) q e).
        assert (f_kinds f <> [] /\ valid toks (f_point f) /\ pos p <= pos (f_point f)) as (N & Vf & Lf).
        { unfold f, add_failure. destruct P1 as [P1 P2].
          destruct (pt_lt q (f_point (m_failures pm1))) eqn:L1.
          - apply (pt_lt_pos toks) in L1; [|auto|auto]. split; [|split; [auto|lia]].
            intros E. rewrite (P2 E) in L1. cbn in L1. lia.
          - destruct (pt_lt (f_point (m_failures pm1)) q) eqn:L2; cbn [f_kinds f_point].
            + split; [discriminate|auto].
            + split; [intros E; apply app_eq_nil in E; destruct E; discriminate|]. split; [auto|].
              assert (~ pos q < pos (f_point (m_failures pm1))) as N1.
              { intros X. apply (pt_lt_pos toks) in X; auto. congruence. }
              assert (~ pos (f_point (m_failures pm1)) < pos q) as N2.
              { intros X. apply (pt_lt_pos toks) in X; auto. congruence. }
              lia. }
        pose proof Vf as Vf'. destruct Vf' as (u & U & _). rewrite U. split; [auto|].
        exists (off (f_point f)), u. split; [|auto].
        pose proof (valid_rank _ _ Vf). unfold pos in Lf. rewrite SN in Lf. cbn [sub_rank] in Lf. lia.
  Qed.

  Theorem parse_items_ok hi : Forall (tok_within 0 hi) toks ->
    match parse_items toks with
    | ItemsOk items => covers toks 0 items /\
        Forall (fun v => typed v (TN "Attributed<Item>")) items /\ Forall (vin 0 hi) items
    | ItemsErr loc errs => errs <> [] /\ exists t, In t toks /\ loc = fst (token_extent t)
    | ItemsAbort _ => False
    end.
  Proof.
    intros W. unfold parse_items.
    pose proof (items_loop_ok hi W (List.length toks) (new_master pt_zero Unambiguous) pt_zero
                  (valid_zero _ WF) eq_refl (pm_ok_new _) ltac:(lia)) as H.
    destruct (items_loop _ _ _ _) as [items|loc errs|w]; auto.
    - destruct H as (A & B & C). split; [auto|]. split; [auto|].
      eapply Forall_impl; [|exact C]. intros u. apply vin_weaken; lia.
    - destruct H as (A & i & t & _ & B & C). split; [auto|]. exists t. split; [|auto].
      eapply nth_error_In; eauto.
  Qed.
End Items.
