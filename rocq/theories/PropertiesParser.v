(** Properties C34, C42 and C45: compound tokens, layout, depth of recursion.

    The vocabulary is in Split.v ([taken]), Layout.v ([form_of], [shape],
    [same_outcome], [items_loop_at]), FileSpec.v ([solid]) and TokenizerSpec.v
    ([contiguous], [symbol_spelling]). *)

From Coq Require Import String List NArith Arith Bool Lia.
From Verif Require Import Base Peresil Token Tokenizer TokenizerSpec.
From Verif Require Import Schema Value Nt Grammar Points Table Static Typing Safety RunOk Apportion Lib FileToks Items FileSpec Split Layout.
Import ListNotations.
Local Open Scope string_scope.
Local Open Scope list_scope.
Local Open Scope nat_scope.

(** ** C34: whichever kinds the parser asks for, one after the other, while it
    moves over one symbol token, the pieces it gets are adjacent, cover the
    token exactly, and each reads in the text as a symbol of the kind asked for. *)
Theorem C34_pieces : forall X, xid_sane X -> forall code ts, tokenize X code = TokOk ts ->
  forall i k s e sp pieces, nth_error (solid ts) i = Some (Tk k (s, e)) ->
  keyword_spelling k = None -> symbol_spelling k = Some sp ->
  taken (solid ts) (mkPt i None) pieces (mkPt (S i) None) ->
  contiguous s (map snd pieces) e /\
  Forall (fun '(k', x) => exists sp', symbol_spelling k' = Some sp' /\ slice code x = Some (str sp')) pieces.
Proof.
  intros X XS code ts T i k s e sp pieces N K S H. rewrite <- solid_significant in *.
  eapply pieces_text; eauto. apply nth_error_In in N. apply filter_In in N. tauto.
Qed.

(** A partly taken token never makes the parser panic, and what remains of it
    can be taken. *)
Theorem C34_resume : forall toks i k x pieces q, nth_error toks i = Some (Tk k x) ->
  taken toks (mkPt i None) pieces q -> off q = i ->
  (forall m err pm w pm', tok toks m err pm q <> (pm', Abort w)) /\
  exists k' x', taken toks q [(k', x')] (mkPt (S i) None).
Proof. exact taken_resume. Qed.

(** Every parser of the grammar, started at a token, stops (with success or
    failure) at a point that is reached by taking pieces of one token. *)
Theorem C34_every_point : forall X, xid_sane X -> forall code ts, tokenize X code = TokOk ts ->
  forall n i amb, i < List.length (solid ts) ->
  exists q, (exists pieces, taken (solid ts) (mkPt (off q) None) pieces q) /\ i <= off q < List.length (solid ts) /\
    match snd (run table (solid ts) (parse_fuel (List.length (solid ts))) (GNT n) [] (new_master pt_zero amb) (mkPt i None)) with
    | Success q' _ => q' = q
    | Failure q' _ => q' = q
    | Abort _ => False
    end.
Proof.
  intros X XS code ts T n i amb L.
  assert (WF : wf_toks (solid ts)).
  { destruct (partition_tokens ts []) as [ws toks] eqn:P. destruct (tokens_wf _ _ _ _ _ XS T P) as [WF _].
    pose proof (partition_filter ts []) as PF. rewrite P in PF. cbn [snd] in PF. now rewrite PF, solid_significant in WF. }
  assert (V : valid (solid ts) (mkPt i None)).
  { unfold valid. cbn [off sub]. destruct (nth_error (solid ts) i) as [t|] eqn:E; [eauto|].
    apply nth_error_None in E. lia. }
  assert (H : exists t, okp (solid ts) (sb (solid ts) (mkPt i None)) t (gfl (GNT n))
     (run table (solid ts) (parse_fuel (List.length (solid ts))) (GNT n) []) (mkPt i None)).
  { assert (S : tsafe true (GNT n) = true /\ exists t, ginfer [] (GNT n) = Some t).
    { assert (B : forallb (fun n => tsafe true (GNT n) && match ginfer [] (GNT n) with Some _ => true | None => false end) all_nts = true)
        by (vm_compute; reflexivity).
      rewrite forallb_forall in B. specialize (B n (all_nts_complete n)). apply andb_prop in B. destruct B as [B1 B2].
      split; [exact B1|]. destruct (ginfer [] (GNT n)); [eauto|discriminate]. }
    destruct S as (S & t & I). exists t. apply (run_ok _ WF _ (GNT n) [] t true); auto.
    - constructor. lia.
    - unfold parse_fuel, rem. pose proof (tsafe_ld _ _ S). assert (K <= 100) by (unfold K; lia). nia. }
  destruct H as (t & H). specialize (H _ (pm_ok_new _ WF amb)).
  destruct (run _ _ _ _ _ _ _) as [pm' [q v|q er|w]]; cbn [snd].
  - destruct H as (_ & _ & G). exists q. split; [apply valid_taken; now destruct G|]. split; [|reflexivity].
    split; [|apply (valid_lt _ _ (g_valid _ _ _ _ _ _ _ G))].
    pose proof (g_pos _ _ _ _ _ _ _ G) as P. pose proof (valid_rank _ _ (g_valid _ _ _ _ _ _ _ G)).
    unfold pos in P. cbn [off sub sub_rank] in P. lia.
  - destruct H as (_ & _ & Vq & P). exists q. split; [now apply valid_taken|]. split; [|reflexivity].
    split; [|now apply (valid_lt _ _)]. pose proof (valid_rank _ _ Vq). unfold pos in P. cbn [off sub sub_rank] in P. lia.
  - contradiction.
Qed.

Example C34_ex :
  let toks := [Tk KShiftRightEquals (4, 7); Tk KEndOfFile (7, 7)] in
  tokenize ascii_xid (str "    >>=") = TokOk (Tk KWhitespace (0, 4) :: toks) /\
  solid (Tk KWhitespace (0, 4) :: toks) = toks /\
  taken toks (mkPt 0 None) [(KRightAngle, (4, 5)); (KRightAngle, (5, 6)); (KEquals, (6, 7))] (mkPt 1 None) /\
  taken toks (mkPt 0 None) [(KRightAngle, (4, 5))] (mkPt 0 (Some 0)).
Proof.
  cbv zeta. set (pm := new_master pt_zero Unambiguous : pm_t).
  split; [vm_compute; reflexivity|]. split; [reflexivity|]. split.
  - apply Tk_cons with (err := ExpectedIdent) (pm := pm) (q := mkPt 0 (Some 0)); [reflexivity|].
    apply Tk_cons with (err := ExpectedIdent) (pm := pm) (q := mkPt 0 (Some 1)); [reflexivity|].
    apply Tk_cons with (err := ExpectedIdent) (pm := pm) (q := mkPt 1 None); [reflexivity|]. constructor.
  - apply Tk_cons with (err := ExpectedIdent) (pm := pm) (q := mkPt 0 (Some 0)); [reflexivity|]. constructor.
Qed.

(** ** C42: the outcome depends on the sequence of forms of the tokens that are
    not layout; the extents and the whitespace of the AST are all that differs,
    and an error is reported at the same token with the same expectations. *)
Theorem C42_layout : forall X, xid_sane X -> forall c1 c2 ts1 ts2,
  tokenize X c1 = TokOk ts1 -> tokenize X c2 = TokOk ts2 ->
  map form_of (solid ts1) = map form_of (solid ts2) ->
  same_outcome (solid ts1) (solid ts2) (parse_rust_file X c1) (parse_rust_file X c2).
Proof. intros X XS c1 c2 ts1 ts2. now apply layout_outcome. Qed.

Example C42_ex :
  (exists ts1 ts2 f1 f2, let c1 := str "fn f(a:u8){1+x}" in let c2 := str "fn g ( bb : u16 ) { /*c*/ 22 + y } // d" in
    tokenize ascii_xid c1 = TokOk ts1 /\ tokenize ascii_xid c2 = TokOk ts2 /\
    map form_of (solid ts1) = map form_of (solid ts2) /\
    parse_rust_file ascii_xid c1 = FileOk f1 /\ parse_rust_file ascii_xid c2 = FileOk f2 /\ f1 <> f2) /\
  (exists ts1 ts2 es, let c1 := str "fn f(a u8){}" in let c2 := str "fn  fff ( a  b ) { }" in
    tokenize ascii_xid c1 = TokOk ts1 /\ tokenize ascii_xid c2 = TokOk ts2 /\
    map form_of (solid ts1) = map form_of (solid ts2) /\
    parse_rust_file ascii_xid c1 = FileErr 7 es /\ parse_rust_file ascii_xid c2 = FileErr 13 es).
Proof.
  split.
  - do 4 eexists. cbv zeta. do 2 (split; [vm_compute; reflexivity|]). split; [vm_compute; reflexivity|].
    do 2 (split; [vm_compute; reflexivity|]). discriminate.
  - do 3 eexists. cbv zeta. do 2 (split; [vm_compute; reflexivity|]). split; [vm_compute; reflexivity|].
    split; vm_compute; reflexivity.
Qed.

(** ** C45: [items_loop_at d] is the loop of [parse_rust_file] with the parsers'
    recursion limited to depth [d].  Any depth from 900 per token on gives the
    result of [parse_rust_file], and gives it for every parser of the grammar. *)
Theorem C45_depth : forall X, xid_sane X -> forall code ts, tokenize X code = TokOk ts ->
  forall d, 900 * (List.length (solid ts) + 1) <= d ->
  items_loop_at d (solid ts) (S (List.length (solid ts))) (new_master pt_zero Unambiguous) pt_zero =
    parse_items (solid ts) /\
  forall w, parse_items (solid ts) <> ItemsAbort w.
Proof.
  intros X XS code ts T d L.
  assert (N : forall w, parse_items (solid ts) <> ItemsAbort w).
  { destruct (partition_tokens ts []) as [ws toks] eqn:P. destruct (tokens_wf _ _ _ _ _ XS T P) as [WF WI].
    pose proof (partition_filter ts []) as PF. rewrite P in PF. cbn [snd] in PF.
    rewrite solid_significant in PF. subst toks.
    pose proof (parse_items_ok _ WF (blen code) WI) as H. intros w E. now rewrite E in H. }
  split; [|exact N]. unfold parse_items in *. apply items_depth; [|exact N]. unfold parse_fuel. lia.
Qed.

(** In general: more depth never changes an answer, nor the recorded failures. *)
Theorem C45_monotone : forall tbl toks d d' x env pm p, d <= d' ->
  snd (run tbl toks d x env pm p) <> Abort OutOfFuel ->
  run tbl toks d' x env pm p = run tbl toks d x env pm p.
Proof. intros. now apply run_fuel. Qed.

(** The answer of a parser does not depend on what failed before. *)
Theorem C45_pure : forall tbl toks d x env pm pm' p, m_state pm = m_state pm' ->
  snd (run tbl toks d x env pm p) <> Abort OutOfFuel ->
  snd (run tbl toks d x env pm' p) = snd (run tbl toks d x env pm p).
Proof. intros. now apply run_pure. Qed.

Example C45_ex : exists ts, tokenize ascii_xid (str "fn f() {}") = TokOk ts /\
  (exists v, items_loop_at 60 (solid ts) 8 (new_master pt_zero Unambiguous) pt_zero = ItemsOk [v]) /\
  items_loop_at 5 (solid ts) 8 (new_master pt_zero Unambiguous) pt_zero = ItemsAbort OutOfFuel.
Proof. eexists. split; [vm_compute; reflexivity|]. split; [eexists|]; vm_compute; reflexivity. Qed.

Print Assumptions C34_pieces.
Print Assumptions C34_resume.
Print Assumptions C34_every_point.
Print Assumptions C42_layout.
Print Assumptions C45_depth.
Print Assumptions C45_monotone.
Print Assumptions C45_pure.
