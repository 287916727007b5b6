(** Where the item loop stops: nothing behind the reported token is involved. *)

From Coq Require Import String List Arith Bool Lia Sorted.
From Verif Require Import Base Peresil Token Tokenizer TokenizerSpec TokenizerWhole.
From Verif Require Import Schema Value Nt Grammar Points Table Safety RunOk Apportion Lib FileToks Items FileSpec LibOk.
From Verif Require Import Rel Layout Reach Ahead.
Import ListNotations.
Local Open Scope string_scope.
Local Open Scope list_scope.
Local Open Scope nat_scope.

(** * The index of the reported token *)

(** [items_loop] (src/lib.rs:325-341) with the depth of recursion as an argument,
    keeping only the index of the reported token and the errors.  The end of the
    file is heeded where [heed] says so. *)
Fixpoint stop (heed : nat -> bool) (d : nat) (toks : list token) (n : nat) (pm : pm_t) (pt : point)
  : option (nat * list perror) :=
  match n with
  | 0 => None
  | S n' =>
      if heed (off pt) && match nth_error toks (off pt) with Some t => is_kind KEndOfFile t | None => true end
      then None
      else
        match run table toks d item_grammar [] pm pt with
        | (pm1, Success next _) => if off pt <? off next then stop heed d toks n' pm1 next else None
        | (pm1, Failure q e) =>
            let f := add_failure pt_lt (m_failures pm1) q e in Some (off (f_point f), f_kinds f)
        | (_, Abort _) => None
        end
  end.

Lemma stop_items heed toks d : parse_fuel (List.length toks) <= d -> forall n m, n <= m -> forall pm pt,
  match items_loop toks n pm pt with
  | ItemsOk _ => (forall i, heed i = true) -> stop heed d toks m pm pt = None
  | ItemsErr l es => exists k t, stop heed d toks m pm pt = Some (k, es) /\ nth_error toks k = Some t /\ l = fst (token_extent t)
  | ItemsAbort _ => True
  end.
Proof.
  intros D n. induction n as [|n IH]; intros m L pm pt; [exact I|]. destruct m as [|m]; [lia|].
  cbn [items_loop stop].
  destruct (match nth_error toks (off pt) with Some t => is_kind KEndOfFile t | None => true end);
    [intros ->; reflexivity|]. rewrite andb_false_r.
  assert (F : snd (run table toks (parse_fuel (List.length toks)) item_grammar [] pm pt) <> Abort OutOfFuel ->
    run table toks d item_grammar [] pm pt = run table toks (parse_fuel (List.length toks)) item_grammar [] pm pt)
    by (now apply run_fuel).
  destruct (run table toks (parse_fuel (List.length toks)) item_grammar [] pm pt) as [pm1 [q v|q e|w]]; cbn [finish];
    [| |exact I]; rewrite F by discriminate; clear F.
  - destruct (off pt <? off q); [|exact I]. specialize (IH m ltac:(lia) pm1 q).
    destruct (items_loop toks n pm1 q); auto.
  - cbv zeta. destruct (nth_error toks (off (f_point (add_failure pt_lt (m_failures pm1) q e)))) as [t|] eqn:T; [|exact I].
    eauto.
Qed.

Lemma add_failure_off (f : failures point perror) p e :
  off (f_point f) <= off (f_point (add_failure pt_lt f p e)) /\ off p <= off (f_point (add_failure pt_lt f p e)).
Proof. apply (record_fo (mkMaster f Unambiguous) p e). Qed.

(** The loop stops behind what was read and recorded. *)
Lemma stop_far heed d toks : forall n pm pt k es, stop heed d toks n pm pt = Some (k, es) -> fo pm <= k /\ off pt <= k.
Proof.
  intros n. induction n as [|n IH]; intros pm pt k es E; [discriminate|]. cbn [stop] in E.
  destruct (heed (off pt) && _); [discriminate|].
  pose proof (run_keeps toks table d item_grammar [] pm pt) as [K1 K2].
  destruct (run table toks d item_grammar [] pm pt) as [pm1 [q v|q e|w]]; cbn [fst snd] in *; [| |discriminate].
  - destruct (Nat.ltb_spec (off pt) (off q)); [|discriminate]. apply IH in E. lia.
  - apply ple_off in K2. cbv zeta in E. injection E as <- _.
    pose proof (add_failure_off (m_failures pm1) q e). unfold fo in *. lia.
Qed.

(** * Two token lists *)

Lemma firstn_nth {A} (l : list A) n i : i < n -> nth_error (firstn n l) i = nth_error l i.
Proof.
  revert l i. induction n as [|n IH]; intros l i H; [lia|]. destruct l as [|x l]; [now destruct i|].
  destruct i as [|i]; [reflexivity|]. cbn [firstn nth_error]. apply IH. lia.
Qed.

Lemma firstn_agree toks1 toks2 k : map form_of (firstn k toks1) = map form_of (firstn k toks2) ->
  forall i, i < k -> agree_at no_ext some_or_none toks1 toks2 i.
Proof.
  intros H i L. apply form_tmap in H. apply (f_equal (fun l => nth_error l i)) in H.
  rewrite !nth_error_map, !firstn_nth in H by lia. exact H.
Qed.

Lemma agree_eof toks1 toks2 i : agree_at no_ext some_or_none toks1 toks2 i ->
  match nth_error toks1 i with Some t => is_kind KEndOfFile t | None => true end =
  match nth_error toks2 i with Some t => is_kind KEndOfFile t | None => true end.
Proof.
  unfold agree_at. intros L. destruct (nth_error toks1 i) as [[|]|], (nth_error toks2 i) as [[|]|]; try discriminate;
    try reflexivity. cbn in L. now injection L as ->.
Qed.

Section Two.
  Variables toks1 toks2 : list token.
  Variable J : nat.
  Hypothesis HF : forall i, i < J -> agree_at no_ext some_or_none toks1 toks2 i.
  Hypothesis HX : agree_at no_ext some_or_none toks1 toks2 J \/ cut toks1 toks2 J.
  Hypothesis HL : List.length toks1 <= List.length toks2.

  Lemma ex_lax s e : blax (fun a b => no_ext a = no_ext b) (ex toks1 s e) (ex toks2 s e).
  Proof.
    assert (N : forall i t, nth_error toks1 i = Some t -> exists u, nth_error toks2 i = Some u).
    { intros i t H. destruct (nth_error toks2 i) as [u|] eqn:E; [eauto|]. apply nth_error_None in E.
      assert (i < List.length toks1) by (apply nth_error_Some; congruence). lia. }
    unfold ex. destruct (nth_error toks1 (off s)) as [t|] eqn:T; [|constructor].
    destruct (N _ _ T) as [u ->]. destruct (off s ?= off e); try constructor.
    - destruct (sub_rank (sub s) ?= sub_rank (sub e)); constructor; reflexivity.
    - destruct (nth_error toks1 (off e - 1)) as [t'|] eqn:T'; [|constructor].
      destruct (N _ _ T') as [u' ->]. constructor. reflexivity.
  Qed.

  Lemma run_both d x pm p : plain x = true ->
    rs J (vs no_ext some_or_none) (run table toks1 d x [] pm p) (run table toks2 d x [] pm p).
  Proof.
    intros D. apply run_rel; auto; try reflexivity.
    - unfold some_or_none. intros a b H. destruct (Nat.eqb_spec a 0), (Nat.eqb_spec b 0); try discriminate H; lia.
    - exact ex_lax.
  Qed.

  Lemma stop_same heed d : heed J = false \/ agree_at no_ext some_or_none toks1 toks2 J -> forall n pm pt es,
    stop heed d toks1 n pm pt = Some (J, es) -> stop heed d toks2 n pm pt = Some (J, es).
  Proof.
    intros HD n. induction n as [|n IH]; intros pm pt es E; [discriminate|].
    pose proof (stop_far heed d toks1 _ _ _ _ _ E) as [_ L].
    cbn [stop] in *.
    assert (C : heed (off pt) && match nth_error toks1 (off pt) with Some t => is_kind KEndOfFile t | None => true end =
                heed (off pt) && match nth_error toks2 (off pt) with Some t => is_kind KEndOfFile t | None => true end).
    { destruct (Nat.eq_dec (off pt) J) as [->|NE].
      - destruct HD as [->|A]; [reflexivity|]. f_equal. now apply agree_eof.
      - f_equal. apply agree_eof, HF. lia. }
    rewrite <- C. clear C. destruct (heed (off pt) && _); [discriminate|].
    pose proof (run_both d item_grammar pm pt eq_refl) as R.
    destruct (run table toks1 d item_grammar [] pm pt) as [pm1 r1], (run table toks2 d item_grammar [] pm pt) as [pm2 r2].
    destruct R as [P|[M R]]; cbn [fst snd] in *.
    - exfalso. destruct r1 as [q v|q e|w]; [| |discriminate]; unfold past, gone in P; cbn [fst snd] in P.
      + destruct (Nat.ltb_spec (off pt) (off q)); [|discriminate]. apply stop_far in E. lia.
      + cbv zeta in E. injection E as E _. pose proof (add_failure_off (m_failures pm1) q e). unfold fo in *. lia.
    - subst pm2. destruct R as [q a b H|q e]; [|exact E]. destruct (off pt <? off q); [|discriminate]. now apply IH.
  Qed.
End Two.

(** A list and the same list with more behind its last token. *)
Lemma stop_more heed toks more d : wf_toks toks -> parse_fuel (List.length toks) <= d ->
  forall n pm p, valid toks p -> sub p = None -> pm_ok toks pm ->
  stop heed d toks n pm p = stop heed d (toks ++ more) n pm p.
Proof.
  intros WF D n. induction n as [|n IH]; intros pm p V SN Hpm; [reflexivity|]. cbn [stop].
  pose proof V as (t & T & _). assert (L : off p < List.length toks) by (apply nth_error_Some; congruence).
  rewrite nth_error_app1 by exact L. rewrite T.
  destruct (heed (off p) && is_kind KEndOfFile t); [reflexivity|].
  pose proof (item_ok toks WF p pm V Hpm SN) as H.
  assert (HF : forall i, i < List.length toks -> agree_at no_ext some_or_none toks (toks ++ more) i).
  { intros i Li. unfold agree_at. now rewrite nth_error_app1 by exact Li. }
  assert (HL : List.length toks <= List.length (toks ++ more)) by (rewrite app_length; lia).
  pose proof (run_both toks (toks ++ more) (pred (List.length toks)) (fun i Li => HF i ltac:(lia))
    (or_introl (HF (pred (List.length toks)) ltac:(lia))) HL d item_grammar pm p eq_refl) as R.
  assert (FE : run table toks d item_grammar [] pm p = run table toks (parse_fuel (List.length toks)) item_grammar [] pm p).
  { apply run_fuel; [exact D|].
    destruct (run table toks (parse_fuel (List.length toks)) item_grammar [] pm p) as [? [| |]]; try discriminate; contradiction. }
  rewrite FE in R |- *.
  destruct (run table toks (parse_fuel (List.length toks)) item_grammar [] pm p) as [pm1 r1],
    (run table (toks ++ more) d item_grammar [] pm p) as [pm2 r2].
  destruct R as [P|[M R]]; cbn [fst snd] in *.
  - exfalso. unfold past, gone, fo in P. cbn [fst snd] in P.
    destruct r1 as [q v|q e|w]; [| |contradiction];
      [destruct H as ([P1 _] & _ & Vq & _)|destruct H as ([P1 _] & _ & Vq & _)];
      apply valid_lt in P1; apply valid_lt in Vq; lia.
  - subst pm2. destruct R as [q a b R|q e]; [|reflexivity].
    destruct H as (P1 & _ & Vq & _ & Sq & _). destruct (off p <? off q); [|reflexivity]. now apply IH.
Qed.

Lemma solid_wf X code ts : xid_sane X -> tokenize X code = TokOk ts ->
  wf_toks (solid ts) /\ Forall (tok_within 0 (blen code)) (solid ts).
Proof.
  intros XS T. destruct (partition_tokens ts []) as [ws toks] eqn:P. destruct (tokens_wf _ _ _ _ _ XS T P) as [WF W].
  pose proof (partition_filter ts []) as PF. rewrite P in PF. cbn [snd] in PF. rewrite PF, solid_significant in *. auto.
Qed.

(** * Starts of tokens *)

Lemma contiguous_sorted init x : forall o e, contiguous o (map token_extent (init ++ [x])) e ->
  Forall (fun t => fst (token_extent t) < snd (token_extent t)) init ->
  StronglySorted (fun a b => fst (token_extent a) < fst (token_extent b)) (init ++ [x]) /\
  Forall (fun t => o <= fst (token_extent t)) (init ++ [x]).
Proof.
  induction init as [|t init IH]; intros o e C F; cbn [app map contiguous] in *.
  - split; [repeat constructor|]. constructor; [lia|constructor].
  - inversion F as [|? ? F1 F2]; subst. destruct C as [<- C]. destruct (IH _ _ C F2) as [S W].
    split; constructor; auto; eapply Forall_impl; try exact W; cbn beta; intros; lia.
Qed.

Lemma sorted_unique {A} (f : A -> nat) l : StronglySorted (fun a b => f a < f b) l ->
  forall i j a b, nth_error l i = Some a -> nth_error l j = Some b -> f a = f b -> i = j.
Proof.
  induction 1 as [|x l S IH F]; intros i j a b Hi Hj E; [now destruct i|]. rewrite Forall_forall in F.
  destruct i as [|i], j as [|j]; cbn [nth_error] in *.
  - reflexivity.
  - injection Hi as ->. apply nth_error_In, F in Hj. lia.
  - injection Hj as ->. apply nth_error_In, F in Hi. lia.
  - f_equal. eauto.
Qed.

Lemma solid_starts X code ts : tokenize X code = TokOk ts -> forall i j a b,
  nth_error (solid ts) i = Some a -> nth_error (solid ts) j = Some b ->
  fst (token_extent a) = fst (token_extent b) -> i = j.
Proof.
  intros T. destruct (tokens_tile _ _ _ T) as (init & E & C & F & _). rewrite E in C.
  destruct (contiguous_sorted _ _ _ _ C F) as [S _]. rewrite <- E in S.
  apply (sorted_unique (fun t => fst (token_extent t))). now apply filter_sorted.
Qed.

(** * Files *)

Lemma file_items X code ts : xid_sane X -> tokenize X code = TokOk ts -> forall l es,
  parse_rust_file X code = FileErr l es <-> parse_items (solid ts) = ItemsErr l es.
Proof.
  intros XS T l es. unfold parse_rust_file. rewrite T. pose proof (partition_filter ts []) as PF.
  destruct (partition_tokens ts []) as [ws toks]. cbn [snd] in PF. rewrite PF, solid_significant.
  destruct (parse_items (solid ts)) as [items|l' es'|w].
  - split; [|discriminate]. destruct (apportion _ _) as [[f [|]]|]; discriminate.
  - split; now intros [= -> ->].
  - split; discriminate.
Qed.

Theorem nothing_behind X c1 c2 ts1 ts2 k t1 es : xid_sane X ->
  tokenize X c1 = TokOk ts1 -> tokenize X c2 = TokOk ts2 ->
  parse_rust_file X c1 = FileErr (fst (token_extent t1)) es -> nth_error (solid ts1) k = Some t1 ->
  map form_of (firstn (S k) (solid ts1)) = map form_of (firstn (S k) (solid ts2)) ->
  exists t2, nth_error (solid ts2) k = Some t2 /\ parse_rust_file X c2 = FileErr (fst (token_extent t2)) es.
Proof.
  intros XS T1 T2 P1 N1 HF.
  destruct (solid_wf _ _ _ XS T1) as [WF1 _]. destruct (solid_wf _ _ _ XS T2) as [WF2 W2].
  apply (file_items X c1 ts1 XS T1) in P1. unfold parse_items in P1.
  set (d := parse_fuel (List.length (solid ts1)) + parse_fuel (List.length (solid ts2))).
  set (n := S (List.length (solid ts1)) + S (List.length (solid ts2))).
  set (pm := new_master pt_zero Unambiguous : pm_t) in *.
  pose proof (stop_items (fun _ => true) (solid ts1) d ltac:(unfold d; lia) (S (List.length (solid ts1))) n ltac:(unfold n; lia) pm pt_zero) as S1.
  rewrite P1 in S1. destruct S1 as (k' & t & S1 & N1' & E).
  assert (k' = k) as -> by (eapply (solid_starts _ _ _ T1); eauto). clear t N1' E.
  pose proof (stop_items (fun _ => true) (solid ts2) d ltac:(unfold d; lia) (S (List.length (solid ts2))) n ltac:(unfold n; lia) pm pt_zero) as S2.
  assert (S2' : stop (fun _ => true) d (solid ts2) n pm pt_zero = Some (k, es)).
  { set (more := repeat (Tk KEndOfFile (0, 0)) (List.length (solid ts1))).
    rewrite (stop_more (fun _ => true) (solid ts2) more d WF2 ltac:(unfold d; lia) n pm pt_zero (valid_zero _ WF2) eq_refl (pm_ok_new _ WF2 _)).
    assert (AG : forall i, i < S k -> agree_at no_ext some_or_none (solid ts1) (solid ts2 ++ more) i).
    { apply firstn_agree. rewrite firstn_app. assert (L : S k <= List.length (solid ts2)).
      { apply (f_equal (@List.length _)) in HF. rewrite !map_length, !firstn_length in HF.
        assert (k < List.length (solid ts1)) by (apply nth_error_Some; congruence). lia. }
      replace (S k - List.length (solid ts2)) with 0 by lia. cbn [firstn]. now rewrite app_nil_r. }
    apply (stop_same (solid ts1)); auto.
    - unfold more. rewrite app_length, repeat_length. lia. }
  pose proof (parse_items_ok _ WF2 _ W2) as NA. unfold parse_items in NA. fold pm in NA.
  destruct (items_loop (solid ts2) (S (List.length (solid ts2))) pm pt_zero) as [items|l2 es2|w] eqn:I2; [specialize (S2 (fun _ => eq_refl)); congruence| |contradiction].
  destruct S2 as (k2 & t2 & S2 & N2 & ->). rewrite S2' in S2. injection S2 as <- <-.
  exists t2. split; [exact N2|]. now apply (file_items X c2 ts2 XS T2).
Qed.

(** The reported token is the first one that could be reported. *)
Theorem not_earlier X c1 c2 ts1 ts2 k1 k2 t1 t2 es1 es2 : xid_sane X ->
  tokenize X c1 = TokOk ts1 -> tokenize X c2 = TokOk ts2 ->
  parse_rust_file X c1 = FileErr (fst (token_extent t1)) es1 -> nth_error (solid ts1) k1 = Some t1 ->
  parse_rust_file X c2 = FileErr (fst (token_extent t2)) es2 -> nth_error (solid ts2) k2 = Some t2 ->
  map form_of (firstn k1 (solid ts1)) = map form_of (firstn k1 (solid ts2)) -> k1 <= k2.
Proof.
  intros XS T1 T2 P1 N1 P2 N2 HF. destruct (le_lt_dec k1 k2) as [L|L]; [exact L|].
  destruct (nothing_behind X c2 c1 ts2 ts1 k2 t2 es2 XS T2 T1 P2 N2) as (t & N & P).
  { apply (f_equal (firstn (S k2))) in HF. rewrite !firstn_map, !firstn_firstn in HF.
    replace (Nat.min (S k2) k1) with (S k2) in HF by lia. congruence. }
  rewrite P in P1. injection P1 as E _. assert (k2 = k1) by (eapply (solid_starts _ _ _ T1); eauto). lia.
Qed.

(** Two texts rejected at the same token: what is expected there depends on the
    tokens before it alone. *)
Theorem same_expectations X c1 c2 ts1 ts2 k t1 t2 es1 es2 : xid_sane X ->
  tokenize X c1 = TokOk ts1 -> tokenize X c2 = TokOk ts2 ->
  parse_rust_file X c1 = FileErr (fst (token_extent t1)) es1 -> nth_error (solid ts1) k = Some t1 ->
  parse_rust_file X c2 = FileErr (fst (token_extent t2)) es2 -> nth_error (solid ts2) k = Some t2 ->
  (forall n, split t1 n = None) -> (forall n, split t2 n = None) ->
  map form_of (firstn k (solid ts1)) = map form_of (firstn k (solid ts2)) -> es1 = es2.
Proof.
  intros XS T1 T2 P1 N1 P2 N2 U1 U2 HF.
  apply (file_items X c1 ts1 XS T1) in P1. apply (file_items X c2 ts2 XS T2) in P2. unfold parse_items in P1, P2.
  set (d := parse_fuel (List.length (solid ts1)) + parse_fuel (List.length (solid ts2))).
  set (n := S (List.length (solid ts1)) + S (List.length (solid ts2))).
  set (pm := new_master pt_zero Unambiguous : pm_t) in *.
  set (heed := fun i => i <? k).
  set (toks := firstn k (solid ts1) ++ repeat (Tk KEndOfFile (0, 0)) (S (List.length (solid ts1) + List.length (solid ts2)))).
  assert (A : forall c ts t es, tokenize X c = TokOk ts -> nth_error (solid ts) k = Some t ->
    items_loop (solid ts) (S (List.length (solid ts))) pm pt_zero = ItemsErr (fst (token_extent t)) es ->
    (forall n, split t n = None) -> parse_fuel (List.length (solid ts)) <= d -> S (List.length (solid ts)) <= n ->
    List.length (solid ts) <= List.length toks -> map form_of (firstn k (solid ts)) = map form_of (firstn k (solid ts1)) ->
    stop heed d toks n pm pt_zero = Some (k, es)).
  { intros c ts t es T N P U Ld Ln Lt F.
    pose proof (stop_items heed (solid ts) d Ld (S (List.length (solid ts))) n Ln pm pt_zero) as S1.
    rewrite P in S1. destruct S1 as (k' & t' & S1 & N' & E).
    assert (k' = k) as -> by (eapply (solid_starts _ _ _ T); eauto).
    assert (L1 : List.length (firstn k (solid ts1)) = k).
    { rewrite firstn_length. assert (k < List.length (solid ts1)) by (apply nth_error_Some; congruence). lia. }
    eapply stop_same; [| |exact Lt| |exact S1].
    - apply firstn_agree. unfold toks. rewrite firstn_app, L1, Nat.sub_diag. cbn [firstn].
      rewrite app_nil_r, firstn_firstn, Nat.min_id. exact F.
    - right. exists t, (0, 0). split; [exact N|]. split; [exact U|]. unfold toks.
      rewrite nth_error_app2 by lia. rewrite L1, Nat.sub_diag. reflexivity.
    - left. apply Nat.ltb_irrefl. }
  assert (LT : List.length (solid ts1) <= List.length toks /\ List.length (solid ts2) <= List.length toks).
  { unfold toks. rewrite app_length, repeat_length. lia. }
  pose proof (A c1 ts1 t1 es1 T1 N1 P1 U1 ltac:(unfold d; lia) ltac:(unfold n; lia) (proj1 LT) eq_refl) as S1.
  pose proof (A c2 ts2 t2 es2 T2 N2 P2 U2 ltac:(unfold d; lia) ltac:(unfold n; lia) (proj2 LT) (eq_sym HF)) as S2.
  congruence.
Qed.
