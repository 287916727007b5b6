(** The expectations reported for a whole file. *)

From Coq Require Import String List NArith Arith Bool Lia.
From Verif Require Import Base Peresil Token Tokenizer TokenizerSpec.
From Verif Require Import Schema Value Nt Grammar Table Lib FileSpec LibOk Layout AheadFile Expect Honest.
Import ListNotations.
Local Open Scope string_scope.
Local Open Scope list_scope.
Local Open Scope nat_scope.

(** No expectation asks for the reported token itself. *)
Theorem expect_other X c ts k t es : xid_sane X -> tokenize X c = TokOk ts ->
  parse_rust_file X c = FileErr (fst (token_extent t)) es -> nth_error (solid ts) k = Some t ->
  compound t = false -> forall e, In e es -> fits e t = false.
Proof.
  intros XS T P N C e I. apply (file_items X c ts XS T) in P. unfold parse_items in P.
  assert (H0 : hpm (solid ts) (new_master pt_zero Unambiguous)) by constructor.
  destruct (items_honest (solid ts) _ _ _ _ _ H0 P) as (q & t' & N' & E & H).
  assert (off q = k) as <- by (eapply (solid_starts _ _ _ T); eauto).
  rewrite Forall_forall in H. exact (H e I t N C).
Qed.

(** A token that is asked for, put in place of the reported one, is taken. *)
Theorem expect_taken X c1 c2 ts1 ts2 k t1 t2 es e : xid_sane X ->
  tokenize X c1 = TokOk ts1 -> tokenize X c2 = TokOk ts2 ->
  parse_rust_file X c1 = FileErr (fst (token_extent t1)) es -> nth_error (solid ts1) k = Some t1 ->
  nth_error (solid ts2) k = Some t2 ->
  map form_of (firstn k (solid ts1)) = map form_of (firstn k (solid ts2)) ->
  compound t1 = false -> compound t2 = false -> In e es -> fits e t2 = true ->
  forall k2 t es2, nth_error (solid ts2) k2 = Some t -> parse_rust_file X c2 = FileErr (fst (token_extent t)) es2 -> k < k2.
Proof.
  intros XS T1 T2 P1 N1 N2 F C1 C2 I FT k2 t es2 N P.
  pose proof (not_earlier X c1 c2 ts1 ts2 k k2 t1 t es es2 XS T1 T2 P1 N1 P N F) as L.
  destruct (Nat.eq_dec k k2) as [<-|]; [exfalso|lia].
  assert (t = t2) as -> by congruence.
  pose proof (same_expectations X c1 c2 ts1 ts2 k t1 t2 es es2 XS T1 T2 P1 N1 P N
    (compound_split _ C1) (compound_split _ C2) F) as <-.
  rewrite (expect_other X c2 ts2 k t2 es XS T2 P N C2 e I) in FT. discriminate.
Qed.
