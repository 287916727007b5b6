(** Properties C18 - C23, C27, C30, C31 and C40: [parse_rust_file] and its
    error reports.

    The vocabulary is in FileSpec.v ([solid], [layout_entries], [error_at]),
    Whitespace.v ([nodes], [below], [collector], [collected], [whitespaces],
    [whitespace_of], [strip], [placed]), Items.v ([covers]), Extents.v
    ([no_marks]), HumanOk.v ([whole_line], [newlines]) and TokenizerSpec.v
    ([boundary]).  [X] stands for the Unicode XID tables, as in
    PropertiesTokenizer.v. *)

From Coq Require Import String List NArith Arith Bool Lia Permutation Sorted.
From Verif Require Import Base Peresil Token Tokenizer TokenizerSpec TokenizerIter TokenizerWhole.
From Verif Require Import Schema Value Nt Grammar Points Table Static Apportion Lib
  FileToks Items Whitespace WhitespaceOk Extents LibOk HumanOk Amb FileSpec.
Import ListNotations.
Local Open Scope string_scope.
Local Open Scope list_scope.
Local Open Scope nat_scope.

(** A text used in the examples: two items, comments, nested generics. *)
Definition sample : text := str "fn f<T: A<B<u8>>>(x: &mut T) { x.g(1 + 2); /*c*/ }
// d
struct S { a: u8 }".

(** ** C18: the model has an explicit [FileAbort] for every panic, failed
    assertion, index out of bounds and exhausted recursion; it is never reached. *)
Theorem C18_total : forall X, xid_sane X -> forall code w, parse_rust_file X code <> FileAbort w.
Proof. exact file_total. Qed.

Example C18_ex : (exists f, parse_rust_file ascii_xid sample = FileOk f) /\
  (exists l es, parse_rust_file ascii_xid (str "fn f( {}") = FileErr l es) /\
  (exists e, parse_rust_file ascii_xid (str "fn ` {}") = FileTokErr e).
Proof. split; [|split]; [eexists|do 2 eexists|eexists]; vm_compute; reflexivity. Qed.

(** ** C19 *)
Theorem C19_extents_in_bounds : forall X, xid_sane X -> forall code f, parse_rust_file X code = FileOk f ->
  forall e, In e (extents f) -> fst e <= snd e /\ snd e <= blen code.
Proof. exact file_extents. Qed.

Example C19_ex : exists f, parse_rust_file ascii_xid sample = FileOk f /\ List.length (extents f) = 90.
Proof. eexists. split; vm_compute; reflexivity. Qed.

(** ** C20: every extent starts at a character boundary; it also ends at one,
    and can be used to index the text, if the text has no U+200E/U+200F.  With
    such a mark in front of a split token the end can be wrong. *)
Theorem C20_indexable_partial : forall X, xid_sane X -> forall code f, no_marks code ->
  parse_rust_file X code = FileOk f ->
  forall e, In e (extents f) -> exists w, slice code e = Some w /\ snd e = fst e + blen w.
Proof. exact file_index. Qed.

Theorem C20_starts_partial : forall X, xid_sane X -> forall code f, parse_rust_file X code = FileOk f ->
  forall e, In e (extents f) -> boundary code (fst e).
Proof. intros X XS code f E e I. exact (proj1 (file_boundaries X XS code f E e I)). Qed.

Theorem C20_indexable_refuted : exists code f e, parse_rust_file ascii_xid code = FileOk f /\
  In e (extents f) /\ slice code e = None.
Proof.
  exists (str "type T=V<V<u8" ++ [8206%N] ++ str ">>;").
  eexists. exists (9, 14). split; [vm_compute; reflexivity|].
  split; [vm_compute; repeat (first [left; reflexivity|right])|vm_compute; reflexivity].
Qed.

Example C20_ex : no_marks (str "fn f() { " ++ [34; 233; 34]%N ++ str " }") /\
  exists f, parse_rust_file ascii_xid (str "fn f() { " ++ [34; 233; 34]%N ++ str " }") = FileOk f /\
    In (9, 13) (extents f).
Proof.
  split.
  - split; intros I; vm_compute in I; repeat (destruct I as [I|I]; [discriminate I|]); exact I.
  - eexists. split; [vm_compute; reflexivity|]. vm_compute. repeat (first [left; reflexivity|right]).
Qed.

(** ** C21 *)
Theorem C21_whitespace_conserved : forall X, xid_sane X -> forall code f, parse_rust_file X code = FileOk f ->
  exists ts, tokenize X code = TokOk ts /\ Permutation (whitespaces f) (layout_entries ts).
Proof.
  intros X XS code f E. destruct (file_accepted X XS code f E) as (ts & parsed & T & _ & F). exists ts.
  split; [exact T|exact (fo_ws _ _ _ _ _ F)].
Qed.

Example C21_ex : exists f, parse_rust_file ascii_xid sample = FileOk f /\ List.length (whitespaces f) = 19.
Proof. eexists. split; vm_compute; reflexivity. Qed.

(** ** C22: [placed n] says that the whitespace of [n] is in source order, starts
    inside [n], and starts inside no node below [n] that collects whitespace;
    the file itself takes what no node collects. *)
Theorem C22_whitespace_innermost : forall X, xid_sane X -> forall code f, parse_rust_file X code = FileOk f ->
  Forall placed (below f) /\
  StronglySorted (fun a b => start_of a < start_of b) (whitespace_of f) /\
  (forall w, In w (whitespace_of f) -> collected (start_of w) (below f) = false).
Proof.
  intros X XS code f E. destruct (file_accepted X XS code f E) as (ts & parsed & _ & _ & F). destruct F.
  destruct fo_root. auto.
Qed.

(** Not every node with a whitespace vector collects: in [async {}] the space
    lies in the [AsyncBlock] and in no node below it, yet goes elsewhere. *)
Theorem C22_every_node_collects_refuted : exists code f n w e,
  parse_rust_file ascii_xid code = FileOk f /\ In n (nodes f) /\ In w (whitespaces f) /\
  (exists l, get_field "whitespace" n = Some (VList l)) /\
  extent_of n = Some e /\ contains e (start_of w) = true /\
  Forall (fun m => forall e, extent_of m = Some e -> contains e (start_of w) = false) (below n) /\
  ~ In w (whitespace_of n).
Proof.
  exists (str "fn f(){async {}}").
  eexists.
  exists (VNode "AsyncBlock" [VExt (7, 15); VNode "Block" [VExt (13, 15); VList []; VNone; VList []]; VNone; VList []]),
    (VVar "Whitespace" "Whitespace" (VExt (12, 13))), (7, 15).
  split; [vm_compute; reflexivity|]. split; [vm_compute; repeat (first [left; reflexivity|right])|].
  split; [vm_compute; repeat (first [left; reflexivity|right])|].
  split; [eexists; reflexivity|]. split; [reflexivity|]. split; [reflexivity|].
  split; [|intros []]. vm_compute. repeat constructor; intros e H; injection H as <-; reflexivity.
Qed.

Example C22_ex : exists f, parse_rust_file ascii_xid sample = FileOk f /\
  existsb (fun n => 3 <=? List.length (whitespace_of n)) (below f) = true /\ List.length (whitespace_of f) = 3.
Proof. eexists. split; [vm_compute; reflexivity|]. split; vm_compute; reflexivity. Qed.

(** ** C23: with all whitespace vectors emptied, the result is the list of parsed
    items; those have no whitespace. *)
Theorem C23_only_whitespace_changes : forall X, xid_sane X -> forall code f, parse_rust_file X code = FileOk f ->
  exists ts parsed, tokenize X code = TokOk ts /\ parse_items (solid ts) = ItemsOk parsed /\
    strip f = strip (VNode "File" [VList parsed; VList []]) /\ Forall (fun v => whitespaces v = []) parsed.
Proof.
  intros X XS code f E. destruct (file_accepted X XS code f E) as (ts & parsed & T & P & F). destruct F.
  exists ts, parsed. auto.
Qed.

Example C23_ex : exists ts parsed, tokenize ascii_xid sample = TokOk ts /\ parse_items (solid ts) = ItemsOk parsed /\
  List.length parsed = 2.
Proof. eexists. eexists. split; [vm_compute; reflexivity|]. split; vm_compute; reflexivity. Qed.

(** ** C27: [covers toks 0 items]: the items are consecutive non-empty runs of
    tokens, from the first token to the end of the file. *)
Theorem C27_items_partition : forall X, xid_sane X -> forall code f, parse_rust_file X code = FileOk f ->
  exists ts items, tokenize X code = TokOk ts /\ get_field "items" f = Some (VList items) /\
    covers (solid ts) 0 items.
Proof.
  intros X XS code f E. destruct (file_accepted X XS code f E) as (ts & parsed & T & P & F). destruct F.
  destruct fo_cover as (items & G & C). exists ts, items. auto.
Qed.

Example C27_ex : exists f a b, parse_rust_file ascii_xid sample = FileOk f /\
  get_field "items" f = Some (VList [a; b]) /\ extent_of a = Some (0, 50) /\ extent_of b = Some (56, 74).
Proof. eexists. eexists. eexists. split; [vm_compute; reflexivity|]. split; [|split]; vm_compute; reflexivity. Qed.

(** ** C30: [a], [u ++ v] and [b] are what is before the line, the line, and what
    is after it; the location is between [u] and [v].  Every location at a
    character boundary is of this form.  The excerpt is the line, preceded by
    the line feed before it. *)
Theorem C30_line_and_excerpt : forall a u v b, whole_line a (u ++ v) b ->
  exists h, human_text_error_new (a ++ u ++ v ++ b) (blen (a ++ u)) = Some h /\
    h_line h = newlines a + 1 /\
    head_of_line h ++ tail_of_line h = (match a with [] => [] | _ => [newline] end) ++ u ++ v.
Proof.
  intros a u v b W. eexists. split; [exact (human_line a u v b W)|]. cbn [h_line head_of_line tail_of_line].
  split; [reflexivity|]. now rewrite <- app_assoc.
Qed.

Theorem C30_every_location : forall t loc, boundary t loc ->
  exists a u v b, t = a ++ u ++ v ++ b /\ loc = blen (a ++ u) /\ whole_line a (u ++ v) b.
Proof. intros t loc B. destruct (human_ok t loc B) as (a & u & v & b & E & L & W & _). exists a, u, v, b. auto. Qed.

Theorem C30_panics_elsewhere : forall t loc, human_text_error_new t loc = None <-> ~ boundary t loc.
Proof. exact human_none. Qed.

Example C30_ex : whole_line (str "a" ++ [newline]) (str "fn " ++ str "x") ([newline] ++ str "b").
Proof. split; [right; now exists (str "a")|]. split; [|right; now exists (str "b")]. intros I. vm_compute in I. intuition discriminate. Qed.

(** ** C31: the column is the number of bytes between the start of the line and
    the location, plus one, except on the first line. *)
Theorem C31_column_partial : forall a u v b, whole_line a (u ++ v) b ->
  exists h, human_text_error_new (a ++ u ++ v ++ b) (blen (a ++ u)) = Some h /\
    h_column h = match a with [] => 0 | _ => 1 end + blen u.
Proof.
  intros a u v b W. eexists. split; [exact (human_line a u v b W)|]. cbn [h_column]. now destruct a.
Qed.

(** The full report.  The caret is below the location on every line but the
    first, where it is one to the left unless the line starts there. *)
Theorem C31_caret_partial : forall title errors a u v b, whole_line a (u ++ v) b ->
  exists tail,
  error_report title (a ++ u ++ v ++ b) (blen (a ++ u)) errors =
    Some (str title ++ str " (line " ++ digits (newlines a + 1) ++ str ", column " ++
          digits (match a with [] => 0 | _ => 1 end + blen u) ++ str ")" ++ [newline] ++
          (match a with [] => [] | _ => [newline] end) ++ u ++ v ++ [newline] ++
          repeat 32%N (match a with [] => blen u - 1 | _ => blen u end) ++ [94%N; newline] ++ tail) /\
  tail = str "Expected:" ++ [newline] ++ flat_map (fun e => str "  " ++ e ++ [newline]) errors.
Proof. exact report_line. Qed.

Theorem C31_column_refuted : ~ exists k, forall t loc a u v b h,
  t = a ++ u ++ v ++ b -> loc = blen (a ++ u) -> whole_line a (u ++ v) b ->
  human_text_error_new t loc = Some h -> h_column h = k + blen u.
Proof.
  intros (k & H).
  assert (h_column (mkHuman [] (str "x") 1 0) = k + 0) as A.
  { apply (H (str "x") 0 [] [] (str "x") []); try reflexivity. split; [now left|]. split; [|now left].
    intros I. vm_compute in I. intuition discriminate. }
  assert (h_column (mkHuman [newline] (str "x") 2 1) = k + 0) as B.
  { apply (H ([newline] ++ str "x") 1 [newline] [] (str "x") []); try reflexivity.
    split; [right; now exists []|]. split; [|now left]. intros I. vm_compute in I. intuition discriminate. }
  cbn [h_column] in *. lia.
Qed.

Example C31_ex : error_report "Unable to parse text" (str "ab cd") 3 [str "E"] = Some (str "Unable to parse text (line 1, column 3)
ab cd
  ^
Expected:
  E
").
Proof. vm_compute. reflexivity. Qed.

(** ** C40: whatever is parsed, from wherever, the restriction on struct literals
    is afterwards what it was before. *)
Theorem C40_restriction_restored : forall toks fuel x e pm p,
  m_state (fst (run table toks fuel x e pm p)) = m_state pm.
Proof. intros toks fuel x e. exact (run_keeps toks table fuel x e). Qed.

(** Inside parentheses, arrays, call arguments, indices, match arms and struct
    literals the restriction has no effect: the outcome (value, position or
    error) is the same under any two restrictions [a] and [b]. *)
Theorem C40_restriction_lifted_partial : forall toks fuel n, In n lifting -> forall pm a b p,
  snd (run table toks fuel (GNT n) [] (set_amb pm a) p) = snd (run table toks fuel (GNT n) [] (set_amb pm b) p) /\
  m_failures (fst (run table toks fuel (GNT n) [] (set_amb pm a) p)) =
    m_failures (fst (run table toks fuel (GNT n) [] (set_amb pm b) p)).
Proof.
  intros toks fuel n I pm a b p.
  pose proof (run_steady toks fuel (GNT n) [] (lifting_steady n I) pm) as H. rewrite (H a p), (H b p). split; reflexivity.
Qed.

(** It is not lifted for the count of an array [value; count], nor in blocks. *)
Theorem C40_repeat_count_refuted :
  (exists f, parse_rust_file ascii_xid (str "fn f(){if [S{a:1}.a,1]==b {}}") = FileOk f) /\
  (exists f, parse_rust_file ascii_xid (str "fn f(){x=[1;S{a:1}.a]==b}") = FileOk f) /\
  (exists l es, parse_rust_file ascii_xid (str "fn f(){if [1;S{a:1}.a]==b {}}") = FileErr l es) /\
  (exists l es, parse_rust_file ascii_xid (str "fn f(){if {S{a:1}}.a {}}") = FileErr l es).
Proof. split; [|split; [|split]]; [eexists|eexists|do 2 eexists|do 2 eexists]; vm_compute; reflexivity. Qed.

Example C40_ex : exists toks v q,
  tokenize ascii_xid (str "(S{a:1})") = TokOk toks /\
  snd (run table toks 200 (GNT N_expr_tuple_or_parenthetical) [] (new_master pt_zero OnlyStructLiterals) pt_zero) = Success q v.
Proof. do 3 eexists. split; [vm_compute; reflexivity|]. vm_compute. reflexivity. Qed.

Print Assumptions C18_total.
Print Assumptions C19_extents_in_bounds.
Print Assumptions C20_indexable_partial.
Print Assumptions C20_starts_partial.
Print Assumptions C20_indexable_refuted.
Print Assumptions C21_whitespace_conserved.
Print Assumptions C22_whitespace_innermost.
Print Assumptions C22_every_node_collects_refuted.
Print Assumptions C23_only_whitespace_changes.
Print Assumptions C27_items_partition.
Print Assumptions C30_line_and_excerpt.
Print Assumptions C30_every_location.
Print Assumptions C30_panics_elsewhere.
Print Assumptions C31_column_partial.
Print Assumptions C31_caret_partial.
Print Assumptions C31_column_refuted.
Print Assumptions C40_restriction_restored.
Print Assumptions C40_restriction_lifted_partial.
Print Assumptions C40_repeat_count_refuted.
