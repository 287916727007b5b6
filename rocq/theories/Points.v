(** Points, extents and token matching: well-formed token arrays and what
    [ex], [tok] and [nested] guarantee on them. *)

From Coq Require Import String List Arith Bool Lia.
From Verif Require Import Base Peresil Token Schema Value Nt Grammar.
Import ListNotations.
Local Open Scope nat_scope.

(** Extents of [l] lie between [lo] and [hi] and are ordered. *)
Definition inside (lo hi : nat) (e : extent) : Prop := lo <= fst e /\ fst e <= snd e /\ snd e <= hi.
Definition vin (lo hi : nat) (v : val) : Prop := Forall (inside lo hi) (extents v).

Lemma inside_weaken lo hi lo' hi' e : lo' <= lo -> hi <= hi' -> inside lo hi e -> inside lo' hi' e.
Proof. unfold inside; lia. Qed.

Lemma vin_weaken lo hi lo' hi' v : lo' <= lo -> hi <= hi' -> vin lo hi v -> vin lo' hi' v.
Proof. intros A B. apply Forall_impl. intros e. now apply inside_weaken. Qed.

(** What the tokenizer guarantees about the token array handed to the parser. *)
Record wf_toks (toks : list token) : Prop := {
  wf_ord : forall i t, nth_error toks i = Some t -> fst (token_extent t) <= snd (token_extent t);
  wf_next : forall i t t', nth_error toks i = Some t -> nth_error toks (S i) = Some t' ->
      snd (token_extent t) <= fst (token_extent t');
  wf_split : forall i t n, nth_error toks i = Some t -> split t n <> None ->
      fst (token_extent t) + n + 2 <= snd (token_extent t);
  wf_num : forall i n, nth_error toks i = Some (TkNumber n) ->
      Forall (inside (fst (n_extent n)) (snd (n_extent n))) (number_extents n);
  wf_eof : forall i t, nth_error toks i = Some t -> is_kind KEndOfFile t = true -> S i = length toks;
  wf_last : exists e, nth_error toks (pred (length toks)) = Some (Tk KEndOfFile e)
}.

Lemma tkind_eqb_eq a b : tkind_eqb a b = true -> a = b.
Proof. destruct a, b; vm_compute; congruence. Qed.

Lemma tkind_eqb_refl a : tkind_eqb a a = true.
Proof. destruct a; reflexivity. Qed.

Lemma nth_error_skipn {A} (l : list A) a i : nth_error (skipn a l) i = nth_error l (a + i).
Proof.
  revert l. induction a as [|a IH]; intros [|x l]; cbn; auto. now destruct i.
Qed.

Section Points.
  Variable toks : list token.
  Hypothesis WF : wf_toks toks.

  Definition valid (p : point) : Prop :=
    exists t, nth_error toks (off p) = Some t /\
              match sub p with None => True | Some n => split t n <> None end.

  Definition pos (p : point) : nat := 3 * off p + sub_rank (sub p).

  Definition sb (p : point) : nat :=
    match nth_error toks (off p) with
    | Some t => fst (token_extent t) + sub_rank (sub p)
    | None => 0
    end.

  Lemma split_small t n : split t n <> None -> n <= 1.
  Proof.
    intros H. destruct n as [|[|n]]; try lia. exfalso. apply H.
    destruct t as [k [s e]|]; [destruct k|]; reflexivity.
  Qed.

  Lemma valid_rank p : valid p -> sub_rank (sub p) <= 2.
  Proof.
    intros (t & _ & S). destruct (sub p) as [n|]; simpl; [|lia].
    apply split_small in S. lia.
  Qed.

  Lemma pos_inj p q : valid p -> valid q -> pos p = pos q -> p = q.
  Proof.
    intros Vp Vq H. apply valid_rank in Vp. apply valid_rank in Vq. unfold pos in H.
    destruct p as [o s], q as [o' s']; simpl in *.
    assert (o = o') by lia. subst o'. f_equal.
    destruct s, s'; simpl in *; try f_equal; lia.
  Qed.

  Lemma pt_lt_pos p q : valid p -> valid q -> pt_lt p q = true <-> pos p < pos q.
  Proof.
    intros Vp Vq. apply valid_rank in Vp. apply valid_rank in Vq. unfold pt_lt, pos.
    destruct (Nat.ltb_spec (off p) (off q)); [split; intros; try lia; reflexivity|].
    destruct (Nat.eqb_spec (off p) (off q)); [|split; intros; [discriminate|lia]].
    rewrite Nat.ltb_lt. lia.
  Qed.

  Lemma valid_lt p : valid p -> off p < length toks.
  Proof. intros (t & H & _). apply nth_error_Some. congruence. Qed.

  Lemma toks_nonempty : toks <> [].
  Proof. destruct (wf_last _ WF) as (e & H). intros ->. discriminate. Qed.

  Lemma valid_zero : valid pt_zero.
  Proof.
    pose proof toks_nonempty as N. unfold valid. destruct toks as [|t l]; [congruence|].
    exists t. split; [reflexivity|exact I].
  Qed.

  (** A token that is not the end of file has a successor. *)
  Lemma not_eof_next i t : nth_error toks i = Some t -> is_kind KEndOfFile t = false ->
    exists t', nth_error toks (S i) = Some t'.
  Proof.
    intros H N. destruct (nth_error toks (S i)) as [t'|] eqn:E; [eauto|].
    exfalso. apply nth_error_None in E.
    assert (i < length toks) by (apply nth_error_Some; congruence).
    destruct (wf_last _ WF) as (e & L). replace (pred (length toks)) with i in L by lia.
    rewrite H in L. injection L as ->. discriminate N.
  Qed.

  Lemma nth_mono i j t t' : nth_error toks i = Some t -> nth_error toks j = Some t' -> i < j ->
    snd (token_extent t) <= fst (token_extent t').
  Proof.
    intros Hi Hj L. revert t' Hj. induction j as [|j IH]; [lia|]. intros t' Hj.
    assert (exists u, nth_error toks j = Some u) as [u Hu].
    { destruct (nth_error toks j) eqn:E; [eauto|]. apply nth_error_None in E.
      assert (S j < length toks) by (apply nth_error_Some; congruence). lia. }
    destruct (Nat.eq_dec i j) as [->|D].
    - rewrite Hu in Hi. injection Hi as ->. eapply wf_next; eauto.
    - assert (i < j) by lia. specialize (IH H u Hu).
      pose proof (wf_next _ WF _ _ _ Hu Hj). pose proof (wf_ord _ WF _ _ Hu). lia.
  Qed.

  Lemma rank_le p t : nth_error toks (off p) = Some t -> valid p ->
    fst (token_extent t) + sub_rank (sub p) <= snd (token_extent t).
  Proof.
    intros H (u & Hu & S). rewrite H in Hu. injection Hu as <-.
    destruct (sub p) as [n|]; simpl.
    - pose proof (wf_split _ WF _ _ _ H S). lia.
    - pose proof (wf_ord _ WF _ _ H). lia.
  Qed.

  Lemma sb_mono p q : valid p -> valid q -> pos p <= pos q -> sb p <= sb q.
  Proof.
    intros Vp Vq H. pose proof (valid_rank _ Vp). pose proof (valid_rank _ Vq).
    assert (exists t, nth_error toks (off p) = Some t) as [t Ht] by (destruct Vp as (t & ? & _); eauto).
    assert (exists u, nth_error toks (off q) = Some u) as [u Hu] by (destruct Vq as (u & ? & _); eauto).
    pose proof (rank_le _ _ Ht Vp) as R.
    unfold sb, pos in *. rewrite Ht, Hu.
    destruct (lt_dec (off p) (off q)) as [L|L].
    - pose proof (nth_mono _ _ _ _ Ht Hu L). lia.
    - assert (off p = off q) as E by lia. rewrite E in Ht. rewrite Ht in Hu. injection Hu as ->. lia.
  Qed.

  (** [State::ex] on ordered valid points. *)
  Lemma ex_ok p q : valid p -> valid q -> pos p <= pos q ->
    exists x, ex toks p q = BOk x /\ fst x = sb p /\ fst x <= snd x /\ snd x <= sb q.
  Proof.
    intros Vp Vq H. pose proof (valid_rank _ Vp). pose proof (valid_rank _ Vq).
    pose proof (sb_mono _ _ Vp Vq H) as M.
    assert (exists t, nth_error toks (off p) = Some t) as [t Ht] by (destruct Vp as (t & ? & _); eauto).
    assert (exists u, nth_error toks (off q) = Some u) as [u Hu] by (destruct Vq as (u & ? & _); eauto).
    pose proof (rank_le _ _ Ht Vp) as R.
    unfold ex, sb, pos, start_offset in *. rewrite Ht, Hu in *.
    destruct (Nat.compare_spec (off p) (off q)) as [E|L|G]; [| |lia].
    - rewrite E in Ht. rewrite Ht in Hu. injection Hu as ->.
      destruct (Nat.compare_spec (sub_rank (sub p)) (sub_rank (sub q))) as [E'|L'|G']; [| |lia];
        eexists; (split; [reflexivity|]); simpl; lia.
    - assert (off q < length toks) by (apply nth_error_Some; congruence).
      destruct (nth_error toks (off q - 1)) as [w|] eqn:W.
      2: { apply nth_error_None in W. lia. }
      eexists. split; [reflexivity|]. simpl.
      assert (snd (token_extent w) <= fst (token_extent u)).
      { eapply nth_mono; [exact W|exact Hu|lia]. }
      assert (snd (token_extent t) <= snd (token_extent w)).
      { destruct (Nat.eq_dec (off p) (off q - 1)) as [E|D].
        - rewrite E in Ht. rewrite Ht in W. injection W as ->. lia.
        - pose proof (nth_mono _ _ _ _ Ht W ltac:(lia)). pose proof (wf_ord _ WF _ _ W). lia. }
      lia.
  Qed.

  (** The kinds that occur as the first half of a split token. *)
  Definition splits_off (k : tkind) : bool :=
    match k with KLeftAngle | KRightAngle | KPipe | KAmpersand => true | _ => false end.

  Definition whole_matcher (m : matcher) : bool :=
    match m with MK k => negb (splits_off k) | MNumber => true end.

  Definition matcher_type (m : matcher) : ty :=
    match m with MK _ => TExt | MNumber => TNumber end.

  Definition not_eof_matcher (m : matcher) : bool :=
    match m with MK KEndOfFile => false | _ => true end.

  (** What splitting yields, in one statement: both parts, their extents, and
      that parts are never the end of file. *)
  Lemma split_spec t n a b : split t n = Some (a, b) ->
    exists ka kb, a = Tk ka (fst (token_extent t) + n, fst (token_extent t) + n + 1) /\
                  b = Tk kb (fst (token_extent t) + n + 1, snd (token_extent t)) /\
                  splits_off ka = true /\ tkind_eqb KEndOfFile kb = false /\
                  is_kind KEndOfFile t = false.
  Proof.
    destruct t as [k [s e]|]; [|discriminate].
    destruct k; destruct n as [|[|n]]; cbn; try discriminate; intros [= <- <-];
      (refine (ex_intro _ _ (ex_intro _ _ (conj _ (conj _ (conj _ (conj _ _))))));
       [apply (f_equal2 Tk eq_refl); apply f_equal2; lia
       |apply (f_equal2 Tk eq_refl); apply f_equal2; lia|reflexivity..]).
  Qed.

  Lemma valid_next i t : nth_error toks i = Some t -> is_kind KEndOfFile t = false ->
    valid (mkPt (i + 1) None).
  Proof.
    intros H N. destruct (not_eof_next _ _ H N) as [t' H']. exists t'. simpl.
    replace (i + 1) with (S i) by lia. now split.
  Qed.

  Lemma sb_next i t : nth_error toks i = Some t -> is_kind KEndOfFile t = false ->
    snd (token_extent t) <= sb (mkPt (i + 1) None).
  Proof.
    intros H N. destruct (not_eof_next _ _ H N) as [t' H']. unfold sb. simpl.
    replace (i + 1) with (S i) by lia. rewrite H'. pose proof (wf_next _ WF _ _ _ H H'). lia.
  Qed.

  (** What a successful [token] guarantees. *)
  Record tok_success (m : matcher) (p q : point) (v : val) : Prop := {
    tks_valid : valid q;
    tks_pos : pos p < pos q;
    tks_typed : typed v (matcher_type m);
    tks_in : vin (sb p) (sb q) v;
    tks_start : forall e, extent_of v = Some e -> fst e = sb p;
    tks_start_num : forall n, v = VNum n -> fst (n_extent n) = sb p;
    tks_whole : whole_matcher m = true -> off q = off p + 1 /\ sub q = None
  }.

  Lemma convert_spec m t v i : nth_error toks i = Some t -> convert m t = Some v ->
    typed v (matcher_type m) /\
    Forall (inside (fst (token_extent t)) (snd (token_extent t))) (extents v) /\
    (forall e, extent_of v = Some e -> fst e = fst (token_extent t)) /\
    (forall n, v = VNum n -> fst (n_extent n) = fst (token_extent t)).
  Proof.
    intros H C. destruct m as [k|], t as [k' e|n]; cbn in C; try discriminate.
    - destruct (tkind_eqb k k'); [|discriminate]. injection C as <-. cbn. split; [constructor|]. split.
      + constructor; [|constructor]. pose proof (wf_ord _ WF _ _ H). cbn in *. split; [lia|]. split; lia.
      + split; [intros e' [= <-]; reflexivity|discriminate].
    - injection C as <-. cbn. split; [constructor|]. split; [|split; [discriminate|]].
      + exact (wf_num _ WF _ _ H).
      + intros n' [= <-]. reflexivity.
  Qed.

  Lemma convert_not_eof m t v : not_eof_matcher m = true -> convert m t = Some v ->
    is_kind KEndOfFile t = false.
  Proof.
    destruct m as [k|], t as [k' e|n]; cbn; try discriminate; [|reflexivity].
    destruct (tkind_eqb k k') eqn:E; [|discriminate]. apply tkind_eqb_eq in E. subst.
    intros N _. destruct k'; cbn in *; congruence.
  Qed.

  Lemma tok_ok m err pm p : valid p -> not_eof_matcher m = true ->
    match tok toks m err pm p with
    | (pm', Success q v) => pm' = pm /\ tok_success m p q v
    | (pm', Failure q e) => pm' = pm /\ q = p /\ e = err
    | (_, Abort _) => False
    end.
  Proof.
    intros V N. pose proof V as V'. destruct V' as (t & Ht & S). unfold tok. rewrite Ht.
    assert (sb p = fst (token_extent t) + sub_rank (sub p)) as SB by (unfold sb; now rewrite Ht).
    pose proof (rank_le _ _ Ht V) as R.
    set (current := match sub p with
                    | Some n => match split t n with Some (_, b) => Some b | None => None end
                    | None => Some t
                    end).
    assert (exists c, current = Some c /\
      fst (token_extent c) = sb p /\ snd (token_extent c) = snd (token_extent t) /\
      (is_kind KEndOfFile c = is_kind KEndOfFile t) /\
      (forall v, convert m c = Some v -> typed v (matcher_type m) /\
         Forall (inside (sb p) (snd (token_extent t))) (extents v) /\
         (forall e, extent_of v = Some e -> fst e = sb p) /\
         (forall n, v = VNum n -> fst (n_extent n) = sb p))) as (c & Hc & Fc & Sc & Ec & Cc).
    { unfold current. destruct (sub p) as [n|] eqn:SP.
      - destruct (split t n) as [[a b]|] eqn:Sp; [|now destruct S].
        destruct (split_spec _ _ _ _ Sp) as (ka & kb & -> & -> & _ & NE & NT).
        eexists. split; [reflexivity|]. cbn in SB, R. cbn [token_extent fst snd].
        split; [lia|]. split; [reflexivity|].
        split; [rewrite NT; exact NE|].
        intros v Hv. destruct m as [k|]; cbn [convert] in Hv; [|discriminate].
        destruct (tkind_eqb k kb); [|discriminate]. injection Hv as <-. cbn.
        split; [constructor|]. split.
        + constructor; [|constructor]. unfold inside. cbn. lia.
        + split; [intros e [= <-]; cbn; lia|discriminate].
      - exists t. split; [reflexivity|]. cbn in SB. rewrite SB. rewrite Nat.add_0_r.
        repeat split; try reflexivity.
        all: destruct (convert_spec _ _ _ _ Ht H) as (A & B & C & D); auto. }
    rewrite Hc. destruct (convert m c) as [v|] eqn:CV.
    - destruct (Cc v eq_refl) as (T & I & ST & SN). split; [reflexivity|].
      pose proof (convert_not_eof _ _ _ N CV) as NE. rewrite Ec in NE.
      pose proof (sb_next _ _ Ht NE) as NX.
      constructor; auto.
      + eapply valid_next; eauto.
      + apply valid_rank in V. unfold pos. simpl. lia.
      + eapply Forall_impl; [|exact I]. intros e. apply inside_weaken; lia.
    - destruct (split t (sub_rank (sub p))) as [[a b]|] eqn:Sp; [|auto].
      destruct (split_spec _ _ _ _ Sp) as (ka & kb & -> & -> & SO & NE & NT).
      match goal with |- context [convert m (Tk ka ?x)] =>
        destruct (convert m (Tk ka x)) as [v|] eqn:CV2 end; [|auto].
      split; [reflexivity|]. destruct m as [k|]; cbn [convert] in CV2; [|discriminate].
      destruct (tkind_eqb k ka) eqn:KE; [|discriminate]. apply tkind_eqb_eq in KE. subst ka.
      injection CV2 as <-.
      assert (split t (sub_rank (sub p)) <> None) as SN by congruence.
      pose proof (wf_split _ WF _ _ _ Ht SN).
      constructor.
      + exists t. simpl. split; [exact Ht|exact SN].
      + unfold pos. simpl. lia.
      + constructor.
      + unfold vin. cbn. constructor; [|constructor]. unfold inside, sb. cbn. rewrite Ht. lia.
      + intros e [= <-]. cbn. lia.
      + discriminate.
      + cbn. rewrite SO. discriminate.
  Qed.

  (** [parse_nested_until] from a point between tokens. *)
  Lemma nested_skip_spec o c d ts :
    nested_skip o c d ts <= length ts /\
    forall i t, i < nested_skip o c d ts -> nth_error ts i = Some t -> is_kind KEndOfFile t = false.
  Proof.
    revert d. induction ts as [|t ts IH]; intros d; simpl; [split; [lia|intros; lia]|].
    destruct (is_kind KEndOfFile t) eqn:E; [split; [lia|intros; lia]|].
    assert (forall d', S (nested_skip o c d' ts) <= S (length ts) /\
       forall i u, i < S (nested_skip o c d' ts) -> nth_error (t :: ts) i = Some u ->
                   is_kind KEndOfFile u = false) as G.
    { intros d'. destruct (IH d') as [A B]. split; [lia|]. intros [|i] u Hi Hu; cbn in Hu.
      - now injection Hu as <-.
      - eapply B; [|exact Hu]. lia. }
    destruct (is_kind o t); [apply G|].
    destruct (is_kind c t); [destruct d; [split; [lia|intros; lia]|apply G]|apply G].
  Qed.

  Lemma nested_valid o c p : valid p ->
    valid (mkPt (off p + nested_skip o c 0 (skipn (off p) toks)) None).
  Proof.
    intros V. pose proof (valid_lt _ V) as L.
    destruct (nested_skip_spec o c 0 (skipn (off p) toks)) as [A B].
    rewrite skipn_length in A.
    destruct (Nat.eq_dec (nested_skip o c 0 (skipn (off p) toks)) 0) as [->|NZ].
    { rewrite Nat.add_0_r. destruct V as (t & Ht & _). exists t. now split. }
    set (k := nested_skip o c 0 (skipn (off p) toks)) in *.
    assert (exists t, nth_error toks (off p + (k - 1)) = Some t) as [t Ht].
    { destruct (nth_error toks (off p + (k - 1))) eqn:E; [eauto|]. apply nth_error_None in E. lia. }
    assert (nth_error (skipn (off p) toks) (k - 1) = Some t) as Hs.
    { rewrite <- Ht. apply nth_error_skipn. }
    pose proof (valid_next _ _ Ht (B (k - 1) _ ltac:(lia) Hs)) as Vn.
    replace (off p + (k - 1) + 1) with (off p + k) in Vn by lia. exact Vn.
  Qed.

  Lemma nested_ok o c pm p : valid p -> sub p = None ->
    exists q e, nested toks o c pm p = (pm, Success q (VExt e)) /\ valid q /\ pos p <= pos q /\
      sub q = None /\ fst e = sb p /\ inside (sb p) (sb q) e.
  Proof.
    intros V SN. pose proof (nested_valid o c p V) as V'. unfold nested.
    set (q := mkPt _ None) in *.
    assert (pos p <= pos q) as M by (unfold pos, q; rewrite SN; simpl; lia).
    destruct (ex_ok p q V V' M) as (x & -> & A & B & C).
    exists q, x. repeat split; auto; unfold inside; lia.
  Qed.
End Points.
