(** The interpreter never aborts, keeps points valid, advances, and returns
    values of the promised type whose extents lie in the consumed range. *)

From Coq Require Import String List Arith Bool Lia.
From Verif Require Import Base Peresil Token Schema Value Nt Grammar Points Table Static Typing.
Import ListNotations.
Local Open Scope string_scope.
Local Open Scope list_scope.
Local Open Scope nat_scope.

Record flags : Type := mkF { fp : bool; fa : bool; fx : bool; fk : bool }.

Lemma all_in_app {A} (P : A -> Prop) l v : (forall x, In x l -> P x) -> P v -> forall x, In x (l ++ [v]) -> P x.
Proof. intros H Hv x Hx. apply in_app_or in Hx. destruct Hx as [Hx|[<-|[]]]; auto. Qed.

Section Safety.
  Variable toks : list token.
  Hypothesis WF : wf_toks toks.

  Notation sb := (sb toks).
  Notation valid := (valid toks).
  Notation starts := (starts toks).

  Definition pm_ok (pm : pm_t) : Prop :=
    valid (f_point (m_failures pm)) /\ (f_kinds (m_failures pm) = [] -> f_point (m_failures pm) = pt_zero).

  (** A semicolon can be read at [p]. *)
  Definition semi (p : point) : Prop :=
    exists q v, forall e (pm : pm_t), tok toks (MK KSemicolon) e pm p = (pm, Success q v).

  Record good (lo : nat) (t : ty) (fl : flags) (p q : point) (v : val) : Prop := {
    g_valid : valid q;
    g_pos : pos p <= pos q;
    g_prog : fp fl = true -> pos p < pos q;
    g_adv : fa fl = true -> off p < off q;
    g_holds : holds v t;
    g_in : vin lo (sb q) v;
    g_starts : fx fl = true -> starts p v;
    g_peek : fk fl = true -> pos p = pos q -> semi p
  }.

  (** The parser [f] behaves at [p]. *)
  Definition okp (lo : nat) (t : ty) (fl : flags) (f : gparser val) (p : point) : Prop :=
    forall pm, pm_ok pm ->
      match f pm p with
      | (pm', Success q v) => pm_ok pm' /\ m_state pm' = m_state pm /\ good lo t fl p q v
      | (pm', Failure q _) => pm_ok pm' /\ m_state pm' = m_state pm /\ valid q /\ pos p <= pos q
      | (_, Abort _) => False
      end.

  Definition rem (p : point) : nat := 3 * length toks - pos p.

  Lemma pos_bound p : valid p -> pos p < 3 * length toks.
  Proof. intros V. pose proof (valid_lt _ _ V). pose proof (valid_rank _ _ V). unfold pos. lia. Qed.

  Lemma rem_le p q : pos p <= pos q -> rem q <= rem p.
  Proof. unfold rem. lia. Qed.

  Lemma rem_lt p q : valid p -> pos p < pos q -> rem q < rem p.
  Proof. intros V L. pose proof (pos_bound _ V). unfold rem. lia. Qed.

  Lemma pm_record pm p e : pm_ok pm -> valid p -> pm_ok (record_failure pt_lt pm p e).
  Proof.
    unfold pm_ok, record_failure, add_failure. cbn. intros H V.
    destruct (pt_lt p _); [auto|]. destruct (pt_lt _ p); cbn [f_point f_kinds].
    - split; [auto|]. discriminate.
    - split; [tauto|]. intros E. apply app_eq_nil in E. destruct E as [_ E]. discriminate.
  Qed.

  Lemma pm_set pm a : pm_ok pm -> pm_ok (set_amb pm a).
  Proof. auto. Qed.

  Lemma okp_le lo t t' fl f p : okp lo t fl f p -> tle t t' = true -> okp lo t' fl f p.
  Proof.
    intros H L pm Hpm. specialize (H pm Hpm). destruct (f pm p) as [pm' [q v|q e|w]]; auto.
    destruct H as (A & B & G). split; [auto|]. split; [auto|]. destruct G. constructor; auto.
    eapply holds_le; eauto.
  Qed.

  Definition fl_le (a b : flags) : Prop :=
    (fp a = true -> fp b = true) /\ (fa a = true -> fa b = true) /\ (fx a = true -> fx b = true) /\
    (fk a = true -> fk b = true).

  Lemma okp_flags lo t fl fl' f p : okp lo t fl f p -> fl_le fl' fl -> okp lo t fl' f p.
  Proof.
    intros H (L1 & L2 & L3 & L4) pm Hpm. specialize (H pm Hpm). destruct (f pm p) as [pm' [q v|q e|w]]; auto.
    destruct H as (A & B & G). split; [auto|]. split; [auto|]. destruct G. constructor; auto.
  Qed.

  (** * Tokens *)

  Lemma tok_indep m e e' (pm pm' pm2 : pm_t) p q v :
    tok toks m e pm p = (pm', Success q v) -> tok toks m e' pm2 p = (pm2, Success q v).
  Proof.
    unfold tok. destruct (nth_error toks (off p)); [|discriminate].
    match goal with |- match ?c with _ => _ end = _ -> _ => destruct c end; [|discriminate].
    destruct (convert m t0).
    - now intros [= <- <- <-].
    - destruct (split t (sub_rank (sub p))) as [[a b]|]; [|discriminate].
      destruct (convert m a); [|discriminate]. now intros [= <- <- <-].
  Qed.

  Lemma tok_okp m e lo p : valid p -> not_eof_matcher m = true -> lo <= sb p ->
    okp lo (matcher_type m) (mkF true (whole_matcher m) true true) (tok toks m e) p.
  Proof.
    intros V N L pm Hpm. pose proof (tok_ok _ WF m e pm p V N) as H.
    destruct (tok toks m e pm p) as [pm' [q v|q err|w]] eqn:E; auto.
    - destruct H as [-> S]. split; [auto|]. split; [auto|]. destruct S.
      constructor; cbn [fp fa fx fk]; auto; try lia.
      + intros W. destruct (tks_whole W). lia.
      + apply typed_holds; [|auto]. now destruct m.
      + eapply vin_weaken; [exact L| |exact tks_in]. lia.
      + intros _. split; [auto|]. split; [auto|]. intros r ->. destruct m; inversion tks_typed.
    - destruct H as (-> & -> & _). split; [auto|]. split; [auto|]. split; auto.
  Qed.

  (** * Repetition *)

  Lemma many_ok lo t fl f p : fp fl = true ->
    forall n, (forall q, valid q -> pos p <= pos q -> okp lo t fl f q) -> valid p -> lo <= sb p ->
    rem p < n ->
    forall pm, pm_ok pm ->
      match zero_or_more pt_lt recov n f pm p with
      | (pm', Success q l) => pm_ok pm' /\ m_state pm' = m_state pm /\ valid q /\ pos p <= pos q /\
          (forall v, In v l -> holds v t) /\ (forall v, In v l -> vin lo (sb q) v)
      | (_, Failure _ _) => False
      | (_, Abort _) => False
      end.
  Proof.
    intros FP n. revert p. induction n as [|n IH]; intros p Hf V Lo R pm Hpm; [lia|].
    cbn [zero_or_more]. pose proof (Hf p V (le_n _) pm Hpm) as H.
    destruct (f pm p) as [pm1 [q v|q e|w]].
    - destruct H as (P1 & S1 & G). pose proof (g_valid _ _ _ _ _ _ G) as Vq.
      pose proof (g_prog _ _ _ _ _ _ G FP) as PR.
      pose proof (sb_mono _ WF _ _ V Vq ltac:(lia)).
      specialize (IH q (fun r Vr Lr => Hf r Vr ltac:(lia)) Vq ltac:(lia)
                     ltac:(pose proof (rem_lt _ _ V PR); lia) pm1 P1).
      destruct (zero_or_more pt_lt recov n f pm1 q) as [pm2 [q2 l|q2 e|w]]; auto.
      destruct IH as (P2 & S2 & V2 & L2 & T2 & I2).
      split; [auto|]. split; [congruence|]. split; [auto|]. split; [lia|]. split.
      + intros x [<-|Hx]; [exact (g_holds _ _ _ _ _ _ G)|auto].
      + intros x [<-|Hx]; [|auto]. eapply vin_weaken; [| |exact (g_in _ _ _ _ _ _ G)]; auto.
        apply sb_mono; auto.
    - cbn [recov]. destruct H as (P1 & S1 & Vq & Lq). split; [now apply pm_record|].
      split; [exact S1|]. split; [auto|]. split; [auto|]. split; intros x [].
    - auto.
  Qed.

  (** * Separated lists *)

  Definition fl_list : flags := mkF false false true false.

  Lemma starts_pair p a b : starts p (VPair a b).
  Proof. apply starts_simple; discriminate || reflexivity. Qed.

  Lemma starts_list p l : starts p (VList l).
  Proof. apply starts_simple; discriminate || reflexivity. Qed.

  Lemma good_tailed lo t p q l n b : valid q -> pos p <= pos q ->
    (forall v, In v l -> holds v t) -> (forall v, In v l -> vin lo (sb q) v) ->
    good lo (tailed_ty t) fl_list p q (vtailed l n b).
  Proof.
    intros V L T I. constructor; auto; try discriminate.
    - apply holds_vpair; [now apply holds_vlist|]. apply holds_vpair; [apply holds_nat|apply holds_bool].
    - apply vin_pair. split; [now apply vin_list|]. apply vin_pair. split; constructor.
    - intros _. apply starts_pair.
  Qed.

  Lemma vin_all_mono lo l p q : valid p -> valid q -> pos p <= pos q ->
    (forall v : val, In v l -> vin lo (sb p) v) -> forall v, In v l -> vin lo (sb q) v.
  Proof.
    intros Vp Vq L H v Hv. eapply vin_weaken; [| |exact (H v Hv)]; auto. apply sb_mono; auto.
  Qed.

  Lemma tailed_ok lo t fl tsep fls f sep n : fp fl = true ->
    forall p, (forall q, valid q -> pos p <= pos q -> okp lo t fl f q) ->
    (forall q, valid q -> pos p < pos q -> okp lo tsep fls sep q) ->
    valid p -> rem p < n ->
    forall values count last,
    (forall v, In v values -> holds v t) -> (forall v, In v values -> vin lo (sb p) v) ->
    okp lo (tailed_ty t) fl_list (tailed_loop n sep f values count last) p.
  Proof.
    intros FP. induction n as [|n IH]; intros p Hf Hs V R values count last TV IV pm Hpm; [lia|].
    cbn [tailed_loop]. pose proof (Hf p V (le_n _) pm Hpm) as H.
    destruct (f pm p) as [pm1 [q v|q e|w]]; auto.
    2: { destruct H as (P1 & S1 & Vq & Lq). split; [auto|]. split; [auto|].
         apply good_tailed; auto. exact (vin_all_mono lo values p q V Vq Lq IV). }
    destruct H as (P1 & S1 & G). pose proof (g_valid _ _ _ _ _ _ G) as Vq.
    pose proof (g_prog _ _ _ _ _ _ G FP) as PR. pose proof (g_holds _ _ _ _ _ _ G) as Hv.
    pose proof (g_in _ _ _ _ _ _ G) as Iv.
    assert (forall x, In x (values ++ [v]) -> holds x t) as T' by (apply all_in_app; auto).
    assert (forall x, In x (values ++ [v]) -> vin lo (sb q) x) as I'.
    { apply all_in_app; auto. apply (vin_all_mono lo values p q V Vq ltac:(lia) IV). }
    pose proof (Hs q Vq PR pm1 P1) as H2.
    destruct (sep pm1 q) as [pm2 [q2 v2|q2 e|w]]; auto.
    - destruct H2 as (P2 & S2 & G2). pose proof (g_valid _ _ _ _ _ _ G2) as V2.
      pose proof (g_pos _ _ _ _ _ _ G2) as L2.
      assert (okp lo (tailed_ty t) fl_list (tailed_loop n sep f (values ++ [v]) (S count) true) q2) as K2.
      { apply IH; auto.
        - intros r Vr Lr. apply Hf; auto; lia.
        - intros r Vr Lr. apply Hs; auto; lia.
        - pose proof (rem_lt _ _ V PR). pose proof (rem_le _ _ L2). lia.
        - apply (vin_all_mono lo (values ++ [v]) q q2 Vq V2 L2 I'). }
      specialize (K2 pm2 P2). destruct (tailed_loop n sep f (values ++ [v]) (S count) true pm2 q2)
        as [pm3 [q3 v3|q3 e|w]]; auto.
      + destruct K2 as (P3 & S3 & G3). split; [auto|]. split; [congruence|].
        destruct G3. constructor; auto; try discriminate; [lia|].
        intros _. pose proof (holds_typed _ _ g_holds0) as T. inversion T; subst. apply starts_pair.
      + destruct K2 as (P3 & S3 & V3 & L3). split; [auto|]. split; [congruence|]. split; [auto|lia].
    - destruct H2 as (P2 & S2 & V2 & L2). split; [auto|]. split; [congruence|].
      apply good_tailed; auto; [lia|].
      apply (vin_all_mono lo (values ++ [v]) q q2 Vq V2 L2 I').
  Qed.

  Lemma tailed1_ok lo t fl tsep fls f sep n : fp fl = true ->
    forall p, (forall q, valid q -> pos p <= pos q -> okp lo t fl f q) ->
    (forall q, valid q -> pos p < pos q -> okp lo tsep fls sep q) ->
    valid p -> rem p <= n ->
    okp lo (tailed_ty t) (mkF (fp fl) (fa fl) true (fk fl)) (tailed1 n sep f) p.
  Proof.
    intros FP p Hf Hs V R pm Hpm. unfold tailed1. pose proof (Hf p V (le_n _) pm Hpm) as H.
    destruct (f pm p) as [pm1 [q v|q e|w]]; auto.
    destruct H as (P1 & S1 & G). pose proof (g_valid _ _ _ _ _ _ G) as Vq.
    pose proof (g_prog _ _ _ _ _ _ G FP) as PR. pose proof (g_holds _ _ _ _ _ _ G) as Hv.
    pose proof (g_in _ _ _ _ _ _ G) as Iv.
    assert (forall x, In x [v] -> holds x t) as T' by (intros x [<-|[]]; auto).
    assert (forall x, In x [v] -> vin lo (sb q) x) as I' by (intros x [<-|[]]; auto).
    assert (forall r w, good lo (tailed_ty t) fl_list q r w ->
              good lo (tailed_ty t) (mkF (fp fl) (fa fl) true (fk fl)) p r w) as GG.
    { intros r w []. constructor; auto; cbn [fp fa fx fk]; intros; try lia.
      - pose proof (g_adv _ _ _ _ _ _ G H). unfold pos in *.
        pose proof (valid_rank _ _ Vq). pose proof (valid_rank _ _ g_valid0). lia.
      - pose proof (holds_typed _ _ g_holds0) as T. inversion T; subst. apply starts_pair. }
    pose proof (Hs q Vq PR pm1 P1) as H2.
    destruct (sep pm1 q) as [pm2 [q2 v2|q2 e|w]]; auto.
    - destruct H2 as (P2 & S2 & G2). pose proof (g_valid _ _ _ _ _ _ G2) as V2.
      pose proof (g_pos _ _ _ _ _ _ G2) as L2.
      assert (okp lo (tailed_ty t) fl_list (tailed_loop n sep f [v] 1 false) q2) as K2.
      { eapply tailed_ok; eauto.
        - intros r Vr Lr. apply Hf; auto; lia.
        - intros r Vr Lr. apply Hs; auto; lia.
        - pose proof (rem_lt _ _ V PR). pose proof (rem_le _ _ L2). lia.
        - apply (vin_all_mono lo [v] q q2 Vq V2 L2 I'). }
      specialize (K2 pm2 P2). destruct (tailed_loop n sep f [v] 1 false pm2 q2)
        as [pm3 [q3 v3|q3 e|w]]; auto.
      + destruct K2 as (P3 & S3 & G3). split; [auto|]. split; [congruence|].
        apply GG. destruct G3. constructor; auto; try discriminate; [lia|].
        intros _. pose proof (holds_typed _ _ g_holds0) as T. inversion T; subst. apply starts_pair.
      + destruct K2 as (P3 & S3 & V3 & L3). split; [auto|]. split; [congruence|]. split; [auto|lia].
    - destruct H2 as (P2 & S2 & V2 & L2). split; [auto|]. split; [congruence|].
      apply GG. apply good_tailed; auto.
      apply (vin_all_mono lo [v] q q2 Vq V2 L2 I').
  Qed.

  Lemma resume_ok lo t fl tsep fls f sep n : fp fl = true -> fp fls = true ->
    forall p, (forall q, valid q -> pos p < pos q -> okp lo t fl f q) ->
    (forall q, valid q -> pos p <= pos q -> okp lo tsep fls sep q) ->
    valid p -> rem p <= n ->
    okp lo (TList t) fl_list (resume n sep f) p.
  Proof.
    intros FP FS p Hf Hs V R pm Hpm. unfold resume. pose proof (Hs p V (le_n _) pm Hpm) as H.
    assert (forall r, valid r -> pos p <= pos r -> good lo (TList t) fl_list p r (VList [])) as GE.
    { intros r Vr Lr. constructor; auto; try discriminate.
      - apply holds_vlist. intros x [].
      - constructor.
      - intros _. apply starts_list. }
    destruct (sep pm p) as [pm1 [q v|q e|w]]; auto.
    2: { destruct H as (P1 & S1 & Vq & Lq). auto. }
    destruct H as (P1 & S1 & G). pose proof (g_valid _ _ _ _ _ _ G) as Vq.
    pose proof (g_prog _ _ _ _ _ _ G FS) as PR.
    assert (okp lo (tailed_ty t) (mkF (fp fl) (fa fl) true (fk fl)) (tailed1 n sep f) q) as K1.
    { eapply tailed1_ok; eauto.
      - intros r Vr Lr. apply Hf; auto; lia.
      - intros r Vr Lr. apply Hs; auto; lia.
      - pose proof (rem_lt _ _ V PR). lia. }
    specialize (K1 pm1 P1). destruct (tailed1 n sep f pm1 q) as [pm2 [q2 v2|q2 e|w]]; auto.
    - destruct K1 as (P2 & S2 & G2). destruct G2.
      apply holds_pair in g_holds0. destruct g_holds0 as (x & y & -> & Hx & Hy).
      apply vin_pair in g_in0. split; [auto|]. split; [congruence|].
      constructor; auto; try discriminate; [lia|tauto|].
      intros _. apply holds_list in Hx. destruct Hx as (l & -> & _). apply starts_list.
    - destruct K1 as (P2 & S2 & V2 & L2). split; [auto|]. split; [congruence|]. auto.
  Qed.

  Lemma implicit_ok lo t fl tsep fls f sep n :
    (fp fl = true \/ (fk fl = true /\ exists e, forall pm q, sep pm q = tok toks (MK KSemicolon) e pm q)) ->
    forall p, (forall q, valid q -> pos p <= pos q -> okp lo t fl f q) ->
    (forall q, valid q -> pos p <= pos q -> (fp fl = true -> pos p < pos q) -> okp lo tsep fls sep q) ->
    valid p -> rem p < n ->
    forall values count last,
    (forall v, In v values -> holds v t) -> (forall v, In v values -> vin lo (sb p) v) ->
    okp lo (tailed_ty t) fl_list (implicit_loop n sep f values count last) p.
  Proof.
    intros FP. induction n as [|n IH]; intros p Hf Hs V R values count last TV IV pm Hpm; [lia|].
    cbn [implicit_loop]. pose proof (Hf p V (le_n _) pm Hpm) as H.
    destruct (f pm p) as [pm1 [q v|q e|w]]; auto.
    2: { destruct H as (P1 & S1 & Vq & Lq). split; [auto|]. split; [auto|].
         apply good_tailed; auto. exact (vin_all_mono lo values p q V Vq Lq IV). }
    destruct H as (P1 & S1 & G). pose proof (g_valid _ _ _ _ _ _ G) as Vq.
    pose proof (g_pos _ _ _ _ _ _ G) as PR. pose proof (g_holds _ _ _ _ _ _ G) as Hv.
    pose proof (g_in _ _ _ _ _ _ G) as Iv.
    assert (forall x, In x (values ++ [v]) -> holds x t) as T' by (apply all_in_app; auto).
    assert (forall x, In x (values ++ [v]) -> vin lo (sb q) x) as I'.
    { apply all_in_app; auto. apply (vin_all_mono lo values p q V Vq ltac:(lia) IV). }
    pose proof (Hs q Vq PR (g_prog _ _ _ _ _ _ G) pm1 P1) as H2.
    assert (forall pm2 q2 c b, pm_ok pm2 -> m_state pm2 = m_state pm -> valid q2 -> pos q <= pos q2 ->
      pos p < pos q2 ->
      match implicit_loop n sep f (values ++ [v]) c b pm2 q2 with
      | (pm', Success q v) => pm_ok pm' /\ m_state pm' = m_state pm /\ good lo (tailed_ty t) fl_list p q v
      | (pm', Failure q _) => pm_ok pm' /\ m_state pm' = m_state pm /\ valid q /\ pos p <= pos q
      | (_, Abort _) => False
      end) as Next.
    { intros pm2 q2 c b P2 S2 V2 L2 PR2.
      assert (okp lo (tailed_ty t) fl_list (implicit_loop n sep f (values ++ [v]) c b) q2) as K2.
      { apply IH; auto.
        - intros r Vr Lr. apply Hf; auto; lia.
        - intros r Vr Lr Lr2. apply Hs; auto; lia.
        - pose proof (rem_lt _ _ V PR2). lia.
        - apply (vin_all_mono lo (values ++ [v]) q q2 Vq V2 L2 I'). }
      specialize (K2 pm2 P2). destruct (implicit_loop n sep f (values ++ [v]) c b pm2 q2)
        as [pm3 [q3 v3|q3 e|w]]; auto.
      + destruct K2 as (P3 & S3 & G3). split; [auto|]. split; [congruence|].
        destruct G3. constructor; auto; try discriminate; [lia|].
        intros _. pose proof (holds_typed _ _ g_holds0) as T. inversion T; subst. apply starts_pair.
      + destruct K2 as (P3 & S3 & V3 & L3). split; [auto|]. split; [congruence|]. split; [auto|lia]. }
    assert (pos p < pos q \/ (semi p /\ q = p /\ exists e, forall pm q, sep pm q = tok toks (MK KSemicolon) e pm q)) as CS.
    { destruct FP as [FP|[FK SE]]; [left; exact (g_prog _ _ _ _ _ _ G FP)|].
      destruct (Nat.eq_dec (pos p) (pos q)) as [E|]; [right|left; lia].
      split; [exact (g_peek _ _ _ _ _ _ G FK E)|]. split; [|exact SE].
      eapply pos_inj; eauto. }
    destruct CS as [CS|(SM & -> & es & SE)].
    - destruct (sep pm1 q) as [pm2 [q2 v2|q2 e|w]]; auto.
      + destruct H2 as (P2 & S2 & G2). pose proof (g_valid _ _ _ _ _ _ G2) as V2.
        pose proof (g_pos _ _ _ _ _ _ G2) as L2. apply Next; auto; [congruence|lia].
      + destruct H2 as (P2 & S2 & V2 & L2). destruct (is_implicit_separator v).
        * apply Next; auto; [congruence|lia].
        * split; [auto|]. split; [congruence|]. apply good_tailed; auto; [lia|].
          apply (vin_all_mono lo (values ++ [v]) q q2 Vq V2 L2 I').
    - destruct SM as (q2 & v2 & SM). pose proof (tok_ok _ WF (MK KSemicolon) es pm1 p V eq_refl) as TK.
      rewrite (SM es pm1) in TK. destruct TK as [_ TK]. destruct TK.
      rewrite SE in H2 |- *. rewrite (SM es pm1) in H2 |- *. destruct H2 as (P2 & S2 & G2).
      apply Next; auto; try congruence; lia.
  Qed.
End Safety.
