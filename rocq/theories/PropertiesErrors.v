(** Properties C29 and C55: the location of a syntax error, and what is expected there.

    The vocabulary is in Layout.v ([form_of]: what the grammar sees of a token)
    FileSpec.v ([solid]: the tokens without whitespace and comments) and Expect.v
    ([fits]: the tokens an expectation asks for). *)

From Coq Require Import String List NArith Arith Bool Lia.
From Verif Require Import Base Peresil Token Tokenizer TokenizerSpec.
From Verif Require Import Schema Value Nt Grammar Table Lib FileSpec LibOk Layout AheadFile Expect ExpectFile Honest.
Import ListNotations.
Local Open Scope string_scope.
Local Open Scope list_scope.
Local Open Scope nat_scope.

(** ** C29: a rejected text is reported at the start of one of its tokens, and
    the report can be rendered. *)
Theorem C29_error_location : forall X, xid_sane X -> forall code title l n,
  error_at (parse_rust_file X code) = Some (title, l, n) ->
  n <> 0 /\ boundary code l /\
  (forall es, parse_rust_file X code = FileErr l es ->
     exists ts t, tokenize X code = TokOk ts /\ In t (solid ts) /\ l = fst (token_extent t)) /\
  (forall names, exists report, error_report title code l names = Some report).
Proof. exact file_error. Qed.

(** Nothing behind the reported token was reached: a text with the same tokens
    up to and including that one is rejected at the same token, with the same
    expectations, whatever follows. *)
Theorem C29_nothing_behind : forall X, xid_sane X -> forall c1 c2 ts1 ts2 k t1 es,
  tokenize X c1 = TokOk ts1 -> tokenize X c2 = TokOk ts2 ->
  parse_rust_file X c1 = FileErr (fst (token_extent t1)) es -> nth_error (solid ts1) k = Some t1 ->
  map form_of (firstn (S k) (solid ts1)) = map form_of (firstn (S k) (solid ts2)) ->
  exists t2, nth_error (solid ts2) k = Some t2 /\ parse_rust_file X c2 = FileErr (fst (token_extent t2)) es.
Proof. intros X XS c1 c2 ts1 ts2 k t1 es. now apply nothing_behind. Qed.

(** All tokens before the reported one were reached: a text with the same tokens
    before it is not rejected at any of them. *)
Theorem C29_not_earlier : forall X, xid_sane X -> forall c1 c2 ts1 ts2 k1 k2 t1 t2 es1 es2,
  tokenize X c1 = TokOk ts1 -> tokenize X c2 = TokOk ts2 ->
  parse_rust_file X c1 = FileErr (fst (token_extent t1)) es1 -> nth_error (solid ts1) k1 = Some t1 ->
  parse_rust_file X c2 = FileErr (fst (token_extent t2)) es2 -> nth_error (solid ts2) k2 = Some t2 ->
  map form_of (firstn k1 (solid ts1)) = map form_of (firstn k1 (solid ts2)) -> k1 <= k2.
Proof. intros X XS c1 c2 ts1 ts2 k1 k2 t1 t2 es1 es2. now apply not_earlier. Qed.

Example C29_ex : exists n, error_at (parse_rust_file ascii_xid (str "fn main( { let x = 1; }")) =
  Some ("Unable to parse text", 9, n) /\ n <> 0.
Proof. eexists. split; [vm_compute; reflexivity|discriminate]. Qed.

Example C29_nothing_behind_ex : exists ts1 ts2 t1 es,
  let c1 := str "mod m { fn f(a b) {} }" in let c2 := str "mod mm { fn g ( x y ; 1 2 3" in
  tokenize ascii_xid c1 = TokOk ts1 /\ tokenize ascii_xid c2 = TokOk ts2 /\
  parse_rust_file ascii_xid c1 = FileErr (fst (token_extent t1)) es /\ nth_error (solid ts1) 7 = Some t1 /\
  map form_of (firstn 8 (solid ts1)) = map form_of (firstn 8 (solid ts2)) /\
  parse_rust_file ascii_xid c2 = FileErr 18 es.
Proof.
  do 2 eexists. exists (Tk KIdent (15, 16)). eexists. cbv zeta.
  do 2 (split; [vm_compute; reflexivity|]). split; [vm_compute; reflexivity|].
  do 2 (split; [vm_compute; reflexivity|]). vm_compute. reflexivity.
Qed.

Example C29_not_earlier_ex : exists ts1 ts2 t1 t2 es1 es2,
  let c1 := str "mod m { fn f(a b) {} }" in let c2 := str "mod mm { fn g ( x : u8 } 1 2" in
  tokenize ascii_xid c1 = TokOk ts1 /\ tokenize ascii_xid c2 = TokOk ts2 /\
  parse_rust_file ascii_xid c1 = FileErr (fst (token_extent t1)) es1 /\ nth_error (solid ts1) 7 = Some t1 /\
  parse_rust_file ascii_xid c2 = FileErr (fst (token_extent t2)) es2 /\ nth_error (solid ts2) 9 = Some t2 /\
  map form_of (firstn 7 (solid ts1)) = map form_of (firstn 7 (solid ts2)).
Proof.
  do 2 eexists. exists (Tk KIdent (15, 16)), (Tk KRightCurly (23, 24)). do 2 eexists. cbv zeta.
  do 2 (split; [vm_compute; reflexivity|]). split; [vm_compute; reflexivity|]. split; [vm_compute; reflexivity|].
  split; [vm_compute; reflexivity|]. split; vm_compute; reflexivity.
Qed.

Print Assumptions C29_error_location.
Print Assumptions C29_nothing_behind.
Print Assumptions C29_not_earlier.

(** ** C55: what is expected at the reported token. *)

(** It depends on the tokens before the reported one alone. *)
Theorem C55_same_prefix : forall X, xid_sane X -> forall c1 c2 ts1 ts2 k t1 t2 es1 es2,
  tokenize X c1 = TokOk ts1 -> tokenize X c2 = TokOk ts2 ->
  parse_rust_file X c1 = FileErr (fst (token_extent t1)) es1 -> nth_error (solid ts1) k = Some t1 ->
  parse_rust_file X c2 = FileErr (fst (token_extent t2)) es2 -> nth_error (solid ts2) k = Some t2 ->
  compound t1 = false -> compound t2 = false ->
  map form_of (firstn k (solid ts1)) = map form_of (firstn k (solid ts2)) -> es1 = es2.
Proof.
  intros X XS c1 c2 ts1 ts2 k t1 t2 es1 es2 T1 T2 P1 N1 P2 N2 C1 C2 F.
  exact (same_expectations X c1 c2 ts1 ts2 k t1 t2 es1 es2 XS T1 T2 P1 N1 P2 N2 (compound_split _ C1) (compound_split _ C2) F).
Qed.

(** The report never asks for the token that is there. *)
Theorem C55_not_there : forall X, xid_sane X -> forall c ts k t es,
  tokenize X c = TokOk ts ->
  parse_rust_file X c = FileErr (fst (token_extent t)) es -> nth_error (solid ts) k = Some t ->
  compound t = false -> forall e, In e es -> fits e t = false.
Proof. intros X XS c ts k t es. now apply expect_other. Qed.

(** Following the advice gets further: when the reported token is replaced by one
    that is asked for, and whatever follows, the text is accepted or rejected at a
    later token. *)
Theorem C55_taken : forall X, xid_sane X -> forall c1 c2 ts1 ts2 k t1 t2 es e,
  tokenize X c1 = TokOk ts1 -> tokenize X c2 = TokOk ts2 ->
  parse_rust_file X c1 = FileErr (fst (token_extent t1)) es -> nth_error (solid ts1) k = Some t1 ->
  nth_error (solid ts2) k = Some t2 ->
  map form_of (firstn k (solid ts1)) = map form_of (firstn k (solid ts2)) ->
  compound t1 = false -> compound t2 = false -> In e es -> fits e t2 = true ->
  forall k2 t es2, nth_error (solid ts2) k2 = Some t -> parse_rust_file X c2 = FileErr (fst (token_extent t)) es2 -> k < k2.
Proof. intros X XS c1 c2 ts1 ts2 k t1 t2 es e. now apply expect_taken. Qed.

Example C55_same_prefix_ex : exists ts1 ts2 es,
  let c1 := str "mod m { fn f(a b) {} }" in let c2 := str "mod mm { fn g ( x 3.5" in
  tokenize ascii_xid c1 = TokOk ts1 /\ tokenize ascii_xid c2 = TokOk ts2 /\
  parse_rust_file ascii_xid c1 = FileErr 15 es /\ parse_rust_file ascii_xid c2 = FileErr 18 es /\
  option_map compound (nth_error (solid ts1) 7) = Some false /\ option_map compound (nth_error (solid ts2) 7) = Some false /\
  map form_of (firstn 7 (solid ts1)) = map form_of (firstn 7 (solid ts2)).
Proof.
  do 3 eexists. cbv zeta.
  do 2 (split; [vm_compute; reflexivity|]). do 2 (split; [vm_compute; reflexivity|]).
  do 2 (split; [vm_compute; reflexivity|]). vm_compute. reflexivity.
Qed.

Example C55_not_there_ex : exists ts es,
  tokenize ascii_xid (str "static S 1;") = TokOk ts /\ nth_error (solid ts) 2 = Some (TkNumber (mkNumber RDecimal (9, 10) (9, 10) None None None 0)) /\
  parse_rust_file ascii_xid (str "static S 1;") = FileErr 9 es /\ es = [ExpectedColon].
Proof. do 2 eexists. do 3 (split; [vm_compute; reflexivity|]). reflexivity. Qed.

Example C55_taken_ex : exists ts1 ts2 t es items,
  let c1 := str "static S 1;" in let c2 := str "static T : u8 = 1;" in
  tokenize ascii_xid c1 = TokOk ts1 /\ tokenize ascii_xid c2 = TokOk ts2 /\
  parse_rust_file ascii_xid c1 = FileErr 9 es /\ nth_error (solid ts2) 2 = Some t /\
  map form_of (firstn 2 (solid ts1)) = map form_of (firstn 2 (solid ts2)) /\
  compound t = false /\ In ExpectedColon es /\ fits ExpectedColon t = true /\
  parse_rust_file ascii_xid c2 = FileOk items.
Proof.
  do 5 eexists. cbv zeta. do 4 (split; [vm_compute; reflexivity|]). split; [vm_compute; reflexivity|].
  split; [reflexivity|]. split; [now left|]. split; [reflexivity|vm_compute; reflexivity].
Qed.

(** The report does not name everything that would be taken: the colon behind an
    argument's name and the comma behind an argument are missing. *)
Theorem C55_complete_refuted :
  (exists es items, parse_rust_file ascii_xid (str "fn f(a b) {}") = FileErr 7 es /\ ~ In ExpectedColon es /\
     parse_rust_file ascii_xid (str "fn f(a : u8) {}") = FileOk items) /\
  (exists es items, parse_rust_file ascii_xid (str "fn f(a: u8 b: u8) {}") = FileErr 11 es /\ ~ In ExpectedComma es /\
     parse_rust_file ascii_xid (str "fn f(a: u8 , b: u8) {}") = FileOk items).
Proof.
  split; do 2 eexists; (split; [vm_compute; reflexivity|]); (split; [cbn; intuition discriminate|vm_compute; reflexivity]).
Qed.

Print Assumptions C55_same_prefix.
Print Assumptions C55_not_there.
Print Assumptions C55_taken.
Print Assumptions C55_complete_refuted.
