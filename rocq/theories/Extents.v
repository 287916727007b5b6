(** The extents of parsed trees start on character boundaries, and end on one
    unless the text uses the multi-byte directional marks. *)

From Coq Require Import String List Arith NArith Bool Lia Sorted.
From Verif Require Import Base Peresil Token Tokenizer TokenizerSpec TokenizerIter TokenizerWhole.
From Verif Require Import Schema Value Nt Grammar Points Table Static Apportion Lib Whitespace Closure FileToks Fresh.
Import ListNotations.
Local Open Scope string_scope.
Local Open Scope list_scope.
Local Open Scope nat_scope.

(** The text has no U+200E and U+200F. *)
Definition no_marks (code : text) : Prop := ~ In 8206%N code /\ ~ In 8207%N code.

Definition good_extent (code : text) (e : extent) : Prop :=
  boundary code (fst e) /\ (no_marks code -> boundary code (snd e)).

Definition ascii (c : N) : Prop := (c < 128)%N.

Lemma ascii_len c : ascii c -> len_utf8 c = 1.
Proof. unfold ascii, len_utf8. intros H. destruct (N.ltb_spec c 128); [reflexivity|lia]. Qed.

Lemma ascii_blen u : Forall ascii u -> blen u = List.length u.
Proof. induction 1 as [|c u H F IH]; [reflexivity|]. cbn [blen List.length]. rewrite ascii_len by auto. lia. Qed.

Lemma In_firstn {A} k (l : list A) x : In x (firstn k l) -> In x l.
Proof. revert l. induction k as [|k IH]; intros [|y l]; cbn; try tauto. intros [->|H]; auto. Qed.

(** * Significant tokens and the text *)

Definition splits_to (t : token) (n : nat) : Prop := split t n <> None.

Lemma split_le1 t n : splits_to t n -> n <= 1.
Proof. destruct t as [k [s e]|]; [|intros H; now elim H]. destruct k; destruct n as [|[|n]]; intros H; try lia; now elim H. Qed.

Lemma split_text X t n s off rest : splits_to t n -> token_at X s off t rest ->
  forall k, k <= n + 2 -> exists u v, s = u ++ v /\ List.length u = k /\ Forall ascii u.
Proof.
  intros S T k K. destruct T as [kd w rest -> L|nn rest H]; [|now elim S].
  assert (n + 2 <= List.length w /\ Forall ascii w) as [LW AW].
  { destruct kd; try (exfalso; apply S; reflexivity); destruct L as [-> _];
      destruct n as [|[|n]]; try (exfalso; apply S; reflexivity);
      (split; [vm_compute; lia|repeat constructor]). }
  exists (firstn k w), (skipn k w ++ rest). split; [now rewrite app_assoc, firstn_skipn|].
  split; [rewrite firstn_length; lia|]. apply Forall_forall. intros c Hc. rewrite Forall_forall in AW.
  apply AW. eapply In_firstn. exact Hc.
Qed.

(** Up to [n + 1] characters before or in a token that can be split at [n] are ASCII. *)
Lemma before_split X s off ts : lexes X s off ts -> no_marks s ->
  forall t l n, filter significant ts = t :: l -> splits_to t n ->
  forall k, k <= n + 1 -> exists u v, s = u ++ v /\ List.length u = k /\ Forall ascii u.
Proof.
  induction 1 as [off|s off t0 rest ts NE T L IH]; intros NM t l n F S k K.
  - cbn in F. injection F as <- <-. now elim S.
  - pose proof (split_le1 _ _ S) as N1. cbn [filter] in F. unfold significant in F at 1.
    destruct (whitespace_node t0) as [w|] eqn:W.
    + destruct t0 as [kd e|]; [|discriminate]. inversion T as [k' w' rest' E Lx|]; subst.
      assert (no_marks rest) as NR by (unfold no_marks in *; rewrite !in_app_iff in NM; tauto).
      destruct kd; try discriminate.
      * (* whitespace *)
        destruct Lx as (NW & FW & _).
        assert (Forall ascii w') as AW.
        { rewrite Forall_forall in *. intros c Hc. specialize (FW c Hc). unfold no_marks in NM.
          rewrite !in_app_iff in NM. unfold ws_char in FW. unfold ascii.
          destruct FW as [->|[->|[->|[->|[->| ->]]]]]; try lia; tauto. }
        destruct (le_lt_dec k (List.length w')) as [Lk|Lk].
        -- exists (firstn k w'), (skipn k w' ++ rest). split; [now rewrite app_assoc, firstn_skipn|].
           split; [rewrite firstn_length; lia|]. apply Forall_forall. intros c Hc. rewrite Forall_forall in AW.
           apply AW. eapply In_firstn. exact Hc.
        -- destruct (IH NR t l n F S (k - List.length w')) as (u & v & -> & Lu & Au); [lia|].
           exists (w' ++ u), v. split; [now rewrite app_assoc|]. rewrite app_length. split; [lia|].
           now apply Forall_app.
      * (* a line comment *)
        destruct Lx as (Px & _). destruct Px as (r & ->).
        destruct k as [|[|[|k]]]; [exists [], (((str "//") ++ r) ++ rest)|exists [47%N], ([47%N] ++ r ++ rest)
          |exists [47%N; 47%N], (r ++ rest)|lia]; (split; [reflexivity|split; [reflexivity|repeat constructor]]).
      * (* a block comment *)
        destruct Lx as (Px & _).
        assert (exists r, w' = str "/*" ++ r) as (r & ->) by (destruct Px as [(b & -> & _)|(b & -> & _)]; eauto).
        destruct k as [|[|[|k]]]; [exists [], (((str "/*") ++ r) ++ rest)|exists [47%N], ([42%N] ++ r ++ rest)
          |exists [47%N; 42%N], (r ++ rest)|lia]; (split; [reflexivity|split; [reflexivity|repeat constructor]]).
    + injection F as <- <-. eapply split_text; eauto. lia.
Qed.

(** Where the [i]-th significant token is. *)
Lemma significant_at X s off ts : lexes X s off ts -> forall i t, nth_error (filter significant ts) i = Some t ->
  exists pre s' ts' l, s = pre ++ s' /\ fst (token_extent t) = off + blen pre /\
    lexes X s' (off + blen pre) ts' /\ ts' = t :: l /\ filter significant l = skipn (S i) (filter significant ts).
Proof.
  induction 1 as [off|s off t0 rest ts NE T L IH]; intros i t N.
  - cbn in N. destruct i as [|[|i]]; try discriminate. injection N as <-.
    exists [], [], [Tk KEndOfFile (off, off)], []. cbn. rewrite Nat.add_0_r. repeat split; auto. constructor.
  - destruct (token_at_fine _ _ _ _ _ T) as (w & E & X1 & _). rewrite X1 in *. cbn [fst snd] in *.
    assert (forall i, nth_error (filter significant ts) i = Some t ->
      exists pre s' ts' l, s = pre ++ s' /\ fst (token_extent t) = off + blen pre /\
        lexes X s' (off + blen pre) ts' /\ ts' = t :: l /\ filter significant l = skipn (S i) (filter significant ts)) as REC.
    { intros j Nj. destruct (IH j t Nj) as (pre & s' & ts' & l & -> & F & L' & -> & FL).
      exists (w ++ pre), s', (t :: l), l. rewrite E, blen_app. repeat split; auto; [now rewrite app_assoc|lia|].
      now replace (off + (blen w + blen pre)) with (off + blen w + blen pre) by lia. }
    cbn [filter] in *. destruct (significant t0) eqn:S0; [|now apply REC].
    destruct i as [|i]; [|now apply REC].
    injection N as <-. exists [], s, (t0 :: ts), ts. cbn [blen]. rewrite Nat.add_0_r, X1.
    repeat split; auto. econstructor; eauto. now rewrite X1.
Qed.

Section Good.
  Variable X : xid.
  Hypothesis XS : xid_sane X.
  Variable code : text.
  Variable ts : list token.
  Hypothesis T : tokenize X code = TokOk ts.
  Let toks := filter significant ts.

  Lemma code_lexes : lexes X code 0 ts.
  Proof. now apply tokenize_iff. Qed.

  Lemma good_token t e : In t toks -> In e (token_parts t) -> good_extent code e.
  Proof.
    intros I E. unfold toks in I. apply filter_In in I. destruct I as [I _].
    assert (In e (token_extents t)) as E' by (destruct t; exact E).
    destruct (extents_valid X code ts T t e I E') as [(A & B & C) _]. split; auto.
  Qed.

  Lemma split_boundary i t n : nth_error toks i = Some t -> splits_to t n ->
    forall k, k <= n + 2 -> boundary code (fst (token_extent t) + k).
  Proof.
    intros N S k K. destruct (significant_at _ _ _ _ code_lexes _ _ N) as (pre & s' & ts' & l & E & F & L & -> & _).
    inversion L as [|? ? ? rest ? NE TA L']; subst; [now elim S|].
    destruct (split_text _ _ _ _ _ _ S TA k K) as (u & v & -> & Lu & Au).
    exists (pre ++ u), v. rewrite F, blen_app, (ascii_blen u) by auto. split; [now rewrite <- app_assoc|].
    rewrite <- Lu. reflexivity.
  Qed.

  Lemma good_split t n a b : In t toks -> split t n = Some (a, b) ->
    good_extent code (token_extent a) /\ good_extent code (token_extent b).
  Proof.
    intros I S. destruct (split_spec _ _ _ _ S) as (ka & kb & -> & -> & _). cbn [token_extent].
    pose proof I as I'. apply In_nth_error in I'. destruct I' as [i Ni].
    assert (splits_to t n) as SP by (unfold splits_to; congruence).
    pose proof (split_boundary i t n Ni SP) as B.
    assert (boundary code (snd (token_extent t))) as E.
    { unfold toks in I. apply filter_In in I. destruct I as [I _].
      destruct (extents_valid X code ts T t (token_extent t) I) as [(_ & _ & C) _]; [|exact C].
      destruct t; [now left|discriminate]. }
    split; split; cbn [fst snd]; auto.
    - apply B. lia.
    - intros _. rewrite <- Nat.add_assoc. apply B. lia.
    - rewrite <- Nat.add_assoc. apply B. lia.
  Qed.

  Lemma token_bounds i t : nth_error toks i = Some t ->
    boundary code (fst (token_extent t)) /\ boundary code (snd (token_extent t)).
  Proof.
    intros N. apply nth_error_In in N. unfold toks in N. apply filter_In in N. destruct N as [I _].
    destruct (extents_valid X code ts T t (token_extent t) I) as [(_ & B & C) _]; [|auto].
    destruct t; now left.
  Qed.

  Lemma start_boundary p first : okpt toks p -> nth_error toks (off p) = Some first ->
    boundary code (start_offset first p).
  Proof.
    intros OK N. unfold start_offset. destruct (sub p) as [n|] eqn:SP; cbn [sub_rank].
    - destruct (OK n SP) as (t & N' & S). rewrite N in N'. injection N' as <-.
      eapply split_boundary; eauto. lia.
    - rewrite Nat.add_0_r. eapply token_bounds; eauto.
  Qed.

  Lemma end_boundary p last : no_marks code -> okpt toks p -> 0 < off p -> nth_error toks (off p - 1) = Some last ->
    boundary code (snd (token_extent last) + sub_rank (sub p)).
  Proof.
    intros NM OK O N. destruct (sub p) as [n|] eqn:SP; cbn [sub_rank].
    - destruct (OK n SP) as (t & N' & S).
      destruct (significant_at _ _ _ _ code_lexes _ _ N) as (pre & s' & ts' & l & E & F & L & -> & FL).
      replace (Datatypes.S (off p - 1)) with (off p) in FL by lia.
      assert (exists l', filter significant l = t :: l') as (l' & FL').
      { rewrite FL. fold toks. clear -N'. revert N'. generalize (off p). induction toks as [|x xs IH]; intros [|o] N'; try discriminate.
        - injection N' as <-. eexists. reflexivity.
        - apply (IH o N'). }
      inversion L as [|? ? ? rest ? NE TA L']; subst.
      + discriminate.
      + destruct (token_at_fine _ _ _ _ _ TA) as (w & -> & X1 & _). rewrite X1 in *. cbn [fst snd] in *.
        assert (no_marks rest) as NR by (unfold no_marks in *; rewrite !in_app_iff in NM; tauto).
        destruct (before_split _ _ _ _ L' NR t l' n FL' S (Datatypes.S n)) as (u & v & -> & Lu & Au); [lia|].
        exists (pre ++ w ++ u), v. rewrite !blen_app, (ascii_blen u) by auto. split; [now rewrite <- !app_assoc|]. rewrite <- Nat.add_assoc. f_equal. f_equal. exact (eq_sym Lu).
    - rewrite Nat.add_0_r. eapply token_bounds; eauto.
  Qed.

  Lemma good_ex s e x : okpt toks s -> okpt toks e -> ex toks s e = BOk x -> good_extent code x.
  Proof.
    intros S E H. unfold ex in H. destruct (nth_error toks (off s)) as [first|] eqn:N; [|discriminate].
    pose proof (start_boundary s first S N) as B.
    destruct (Nat.compare_spec (off s) (off e)) as [EQ|L|L]; [| |discriminate].
    - destruct (Nat.compare_spec (sub_rank (sub s)) (sub_rank (sub e))) as [R|R|R]; [| |discriminate];
        injection H as <-; split; cbn [fst snd]; auto.
      intros _. apply start_boundary; [auto|]. now rewrite <- EQ.
    - destruct (nth_error toks (off e - 1)) as [last|] eqn:N2; [|discriminate]. injection H as <-.
      split; cbn [fst snd]; auto. intros NM. apply end_boundary; auto. lia.
  Qed.

  Lemma good_join a b : good_extent code a -> good_extent code b -> good_extent code (fst a, snd b).
  Proof. intros [A _] [_ B]. split; auto. Qed.

  Lemma run_good n x e pm p pm' q v : gfree x = true -> efree toks (good_extent code) e -> okpt toks p ->
    run table toks n x e pm p = (pm', Success q v) -> okpt toks q /\ vok toks (good_extent code) v.
  Proof.
    intros G E OK R. pose proof (run_closed toks (good_extent code) good_token good_split good_ex good_join n x e G E pm p OK) as H.
    now rewrite R in H.
  Qed.

  Lemma items_good : forall n pm p items, okpt toks p -> items_loop toks n pm p = ItemsOk items ->
    Forall (vok toks (good_extent code)) items.
  Proof.
    induction n as [|n IH]; intros pm p items OK R; [discriminate|]. cbn [items_loop] in R.
    match type of R with (if ?b then _ else _) = _ => destruct b end; [injection R as <-; constructor|].
    destruct (run table toks (parse_fuel (List.length toks)) item_grammar [] pm p) as [pm1 [q v|q e|w]] eqn:R1; cbn [finish] in R.
    - apply run_good in R1; [|reflexivity|constructor|exact OK]. destruct R1 as [Oq V].
      destruct (off p <? off q); [|discriminate].
      destruct (items_loop toks n pm1 q) as [items'| |] eqn:L; try discriminate. injection R as <-. constructor; eauto.
    - destruct (nth_error toks _); discriminate.
    - discriminate.
  Qed.
End Good.
