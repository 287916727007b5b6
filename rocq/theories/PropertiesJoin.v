(** C62: lines put in front of a file or behind it.

    Read with: Join.v ([settled], [line_end], [flush], [moved_outcome]), Cut.v ([later],
    [moved]), FileSpec.v ([solid]: the tokens that are neither whitespace nor comments),
    Layout.v ([same_outcome], [shape]), Behind.v ([up_to],
    [same_up_to]). *)

From Coq Require Import String List Arith NArith Bool Lia.
From Verif Require Import Base Token Tokenizer TokenizerSpec TokenizerWhole Schema Value Lib Whitespace FileSpec Layout Rel Cut Join Behind.
Import ListNotations.
Local Open Scope string_scope.
Local Open Scope list_scope.
Local Open Scope nat_scope.

(** [A] is a text the tokenizer accepts, none of its tokens is affected by a line that
    follows ([settled]), and [B] is on a later line.  Then the text of both has the
    tokens of [A], one whitespace token and the tokens of [B], and it is rejected
    exactly when [B] is. *)
Theorem C62_tokens_of_joined_texts : forall X, xid_sane X -> forall A B sp ts e,
  tokenize X A = TokOk (ts ++ [Tk KEndOfFile e]) -> Forall (settled 0 A) ts -> line_end sp -> flush B ->
  forall L, tokenize X (A ++ sp ++ B) = TokOk L <->
    exists tsB, tokenize X B = TokOk tsB /\
      L = ts ++ Tk KWhitespace (blen A, blen (A ++ sp)) :: map (tmap (later (blen (A ++ sp))) id_nat) tsB.
Proof. intros X XS A B sp ts e. exact (join_lexes X A B sp ts e XS). Qed.

(** Comments and blank lines in front of a file move its whole tree, or the position of
    the error, and change nothing else. *)
Theorem C62_comments_in_front : forall X, xid_sane X -> forall A B sp ts e,
  tokenize X A = TokOk (ts ++ [Tk KEndOfFile e]) -> Forall (settled 0 A) ts -> solid ts = [] -> line_end sp -> flush B ->
  moved_outcome (blen (A ++ sp)) (parse_rust_file X B) (parse_rust_file X (A ++ sp ++ B)).
Proof. intros X XS A B sp ts e T S SO LE FL. exact (front_layout X A B sp ts e XS T S LE FL SO). Qed.

(** Comments behind a file change neither the outcome nor the shape of the tree. *)
Theorem C62_comments_behind : forall X, xid_sane X -> forall A B sp ts e tsB,
  tokenize X A = TokOk (ts ++ [Tk KEndOfFile e]) -> Forall (settled 0 A) ts -> line_end sp -> flush B ->
  tokenize X B = TokOk (tsB ++ [Tk KEndOfFile (blen B, blen B)]) -> solid tsB = [] ->
  exists L, tokenize X (A ++ sp ++ B) = TokOk L /\
    same_outcome (solid (ts ++ [Tk KEndOfFile e])) (solid L) (parse_rust_file X A) (parse_rust_file X (A ++ sp ++ B)).
Proof. intros X XS A B sp ts e tsB. exact (back_layout X A B sp ts e tsB XS). Qed.

(** They leave every position in the tree where it is.  Left out: the whitespace of the
    nodes, and an empty extent at the very end of the file, which might move with it.
    An error stays where it is, unless it is at the end of the file. *)
Theorem C62_comments_behind_tree : forall X, xid_sane X -> forall A B sp ts e tsB,
  tokenize X A = TokOk (ts ++ [Tk KEndOfFile e]) -> Forall (settled 0 A) ts -> line_end sp -> flush B ->
  tokenize X B = TokOk (tsB ++ [Tk KEndOfFile (blen B, blen B)]) -> solid tsB = [] ->
  same_up_to (blen A) (blen (A ++ sp ++ B)) (parse_rust_file X A) (parse_rust_file X (A ++ sp ++ B)).
Proof. intros X XS A B sp ts e tsB. exact (behind_tree X A B sp ts e tsB XS). Qed.

(** A line comment, whatever it says, in front of whatever file. *)
Theorem C62_line_comment_in_front : forall X, xid_sane X -> forall words B, ~ In 10%N words -> flush B ->
  moved_outcome (4 + blen words) (parse_rust_file X B) (parse_rust_file X (str "// " ++ words ++ 10%N :: B)).
Proof.
  intros X XS words B N FL.
  assert (T : tokenize X (str "// " ++ words) = TokOk ([Tk KCommentLine (0, 3 + blen words)] ++ [Tk KEndOfFile (3 + blen words, 3 + blen words)])).
  { apply tokenize_iff; [exact XS|]. eapply lexes_step with (rest := []); [discriminate| |cbn [snd token_extent]; constructor].
    change (0, 3 + blen words) with (0, 0 + blen (str "// " ++ words)). constructor; [now rewrite app_nil_r|].
    cbn [lexical keyword_spelling symbol_spelling]. split; [eexists; reflexivity|]. split; [intros [r E]; discriminate|].
    split; [intros [r E]; discriminate|]. split; [|now left]. intros I. apply in_app_or in I as [I|I]; [|auto]. cbn in I. intuition discriminate. }
  pose proof (front_layout X (str "// " ++ words) B [10%N] _ _ XS T) as H.
  rewrite <- !app_assoc in H. assert (Q : 4 + blen words = blen (str "// " ++ words ++ [10%N])) by (rewrite !blen_app; cbn; lia).
  rewrite Q.
  apply H; [|split; [repeat (constructor; [unfold ws_char; lia|]); constructor|eauto]|exact FL|reflexivity].
  constructor; [|constructor]. intros before behind E F. cbn. repeat split; try discriminate. all: intros [K|[K|[K|[]]]]; discriminate.
Qed.

Example C62_ex :
  let A := str "/* licence */ // one line" in
  let B := str "fn f() { 1 }" in
  let sp := [10%N; 10%N; 32%N] in
  exists ts e, tokenize ascii_xid A = TokOk (ts ++ [Tk KEndOfFile e]) /\ Forall (settled 0 A) ts /\ solid ts = [] /\
    line_end sp /\ flush B /\ exists items ws, parse_rust_file ascii_xid B = FileOk (VNode "File" [VList items; VList ws]) /\ List.length ws = 0 /\ List.length items = 1.
Proof.
  cbv zeta. exists [Tk KCommentBlock (0, 13); Tk KWhitespace (13, 14); Tk KCommentLine (14, 25)], (25, 25).
  split; [vm_compute; reflexivity|]. split.
  { repeat (constructor; [intros before behind E F; cbn; repeat split; try discriminate; try lia; try (intros [K|[K|[K|[]]]]; discriminate)|]).
    constructor. }
  split; [reflexivity|]. split; [split; [repeat (constructor; [unfold ws_char; lia|]); constructor|eauto]|]. split.
  { intros c r E. injection E as <- _. unfold ws_char. lia. }
  do 2 eexists. split; [vm_compute; reflexivity|]. split; reflexivity.
Qed.

Example C62_ex_behind :
  let A := str "fn f() { 1 }" in
  let B := str "// the end" in
  exists ts e, tokenize ascii_xid A = TokOk (ts ++ [Tk KEndOfFile e]) /\ Forall (settled 0 A) ts /\ flush B /\
    exists tsB, tokenize ascii_xid B = TokOk (tsB ++ [Tk KEndOfFile (blen B, blen B)]) /\ solid tsB = [].
Proof.
  cbv zeta. exists (firstn 11 (match tokenize ascii_xid (str "fn f() { 1 }") with TokOk ts => ts | _ => [] end)), (12, 12).
  split; [vm_compute; reflexivity|]. split.
  { apply Forall_forall. intros t It before behind E F. destruct t as [k e|n]; [|exact I]. repeat split.
    - intros ->. vm_compute in It. repeat destruct It as [It|It]; inversion It; subst; cbn; lia.
    - intros K. exfalso. vm_compute in It. repeat destruct It as [It|It]; inversion It; subst k; repeat destruct K as [K|K]; discriminate || destruct K.
    - intros _ [r ->]. apply (f_equal (existsb (N.eqb 98))) in E. rewrite existsb_app in E. cbn in E. clear It. rewrite orb_true_r in E. discriminate E. }
  split; [intros c q E; injection E as <- _; unfold ws_char; lia|].
  exists [Tk KCommentLine (0, 10)]. split; [vm_compute; reflexivity|reflexivity].
Qed.

(** An error at the end of a file moves with it, one in front of it does not. *)
Example C62_ex_errors :
  (exists es, parse_rust_file ascii_xid (str "fn f(") = FileErr 5 es /\ parse_rust_file ascii_xid (str "fn f(" ++ [10%N] ++ str "// x") = FileErr 10 es) /\
  (exists es, parse_rust_file ascii_xid (str "fn 1 f(") = FileErr 3 es /\ parse_rust_file ascii_xid (str "fn 1 f(" ++ [10%N] ++ str "// x") = FileErr 3 es) /\
  ~ same_up_to 5 10 (FileErr 5 []) (FileErr 7 []) /\ ~ same_up_to 5 10 (FileErr 3 []) (FileErr 10 []).
Proof.
  split; [eexists; split; vm_compute; reflexivity|]. split; [eexists; split; vm_compute; reflexivity|].
  split; intros [_ [H|[H1 H2]]]; discriminate.
Qed.

(** The conditions on [A] are needed.  A hash behind the identifier br: the line that
    follows can turn that and what is behind it into a literal, so that two accepted
    texts are rejected when they are joined, or give other tokens. *)
Theorem C62_open_raw_string_refuted : exists A tsA,
  tokenize ascii_xid A = TokOk tsA /\ map token_extent tsA = [(0, 2); (2, 3); (3, 6); (6, 6)] /\
  (exists B tsB err, tokenize ascii_xid B = TokOk tsB /\ flush B /\ tokenize ascii_xid (A ++ [10%N] ++ B) = TokErr err) /\
  (exists B tsB ts, tokenize ascii_xid B = TokOk tsB /\ flush B /\ tokenize ascii_xid (A ++ [10%N] ++ B) = TokOk ts /\
     map token_extent tsB = [(0, 3); (3, 4); (4, 7); (7, 7)] /\ map token_extent ts = [(0, 9); (9, 14); (14, 14)]).
Proof.
  exists (str "br#""a"""). eexists. split; [vm_compute; reflexivity|]. split; [reflexivity|].
  assert (F : forall r, flush (34%N :: r)) by (intros r c q E; injection E as <- _; unfold ws_char; lia). split.
  - exists (str """#"""). do 2 eexists. split; [vm_compute; reflexivity|]. split; [apply F|]. vm_compute. reflexivity.
  - exists (str """#"" //"""). do 2 eexists. split; [vm_compute; reflexivity|]. split; [apply F|]. split; [vm_compute; reflexivity|]. split; reflexivity.
Qed.

(** A block comment the text leaves open takes in the line behind it. *)
Theorem C62_open_comment_refuted : exists A B tsA ts,
  tokenize ascii_xid A = TokOk tsA /\ flush B /\ tokenize ascii_xid (A ++ [10%N] ++ B) = TokOk ts /\
  map token_extent tsA = [(0, 4); (4, 4)] /\ map token_extent ts = [(0, 11); (11, 11)].
Proof.
  exists (str "/* a"), (str "fn f()"). do 2 eexists. split; [vm_compute; reflexivity|].
  split; [intros c q E; injection E as <- _; unfold ws_char; lia|]. split; [vm_compute; reflexivity|]. split; reflexivity.
Qed.

(** [settled] rules these out, and whitespace at the end of the text. *)
Example C62_settled :
  ~ settled 0 (str "br#""a""") (Tk KIdent (0, 2)) /\ ~ settled 0 (str "/* a") (Tk KCommentBlock (0, 4)) /\
  ~ settled 0 (str "a ") (Tk KWhitespace (1, 2)).
Proof.
  split; [|split]; intros S.
  - specialize (S [] _ eq_refl eq_refl). destruct S as (_ & _ & S). apply S; [reflexivity|]. eexists; reflexivity.
  - specialize (S [] _ eq_refl eq_refl). destruct S as (_ & S & _). destruct (S ltac:(cbn; auto) eq_refl) as [b E].
    destruct b as [|x [|y [|z b]]]; discriminate.
  - specialize (S (str "a") (str " ") eq_refl eq_refl). destruct S as (S & _). specialize (S eq_refl). cbn in S. lia.
Qed.

Print Assumptions C62_tokens_of_joined_texts.
Print Assumptions C62_comments_in_front.
Print Assumptions C62_comments_behind.
Print Assumptions C62_comments_behind_tree.
Print Assumptions C62_line_comment_in_front.
Print Assumptions C62_open_raw_string_refuted.
Print Assumptions C62_open_comment_refuted.
