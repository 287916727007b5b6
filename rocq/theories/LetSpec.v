(** Specification for C58: the lengths of array types. *)

From Coq Require Import String List Bool.
From Verif Require Import Base Token Schema Value OutlineSpec UseSpec RustSpec DelimSpec.
Import ListNotations.
Local Open Scope list_scope.

(** Wherever [\[], tokens with paired delimiters and [;] follow one another, as in an
    array type, what is left up to the [\]] has no delimiter: [\[u8; N + 1\]]. *)
Definition plain_lengths (toks : list token) : Prop := forall before open typ semi after,
  toks = before ++ open :: typ ++ semi :: after ->
  token_is KLeftSquare open = true -> paired typ -> token_is KSemicolon semi = true ->
  exists count close rest, after = count ++ close :: rest /\ Forall (fun t => bracket t = false) count /\
    token_is KRightSquare close = true.
