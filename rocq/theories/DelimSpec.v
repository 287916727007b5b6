(** Specification for C57: token sequences in which delimiters pair up. *)

From Coq Require Import String List Bool.
From Verif Require Import Base Token Schema Value OutlineSpec UseSpec RustSpec.
Import ListNotations.
Local Open Scope list_scope.

Definition brackets : list (tkind * tkind) :=
  [(KLeftParen, KRightParen); (KLeftSquare, KRightSquare); (KLeftCurly, KRightCurly)].

Definition bracket (t : token) : bool := existsb (fun '(o, c) => token_is o t || token_is c t) brackets.

(** Every opening delimiter has its closing one, in the right order.  The text
    between the delimiters of what looks like a macro invocation ([!], perhaps a
    name, and an opening delimiter) or an attribute ([#], perhaps [!], and [\[])
    need only be balanced in these delimiters. *)
Inductive paired : list token -> Prop :=
| PR_nil : paired []
| PR_other t ts : bracket t = false -> paired ts -> paired (t :: ts)
| PR_group o c t u a b : In (o, c) brackets -> token_is o t = true -> token_is c u = true ->
    paired a -> paired b -> paired (t :: a ++ u :: b)
| PR_macro o c bang name t u a b : In (o, c) brackets -> token_is KBang bang = true ->
    name = [] \/ (exists w, name = [w] /\ bracket w = false) ->
    token_is o t = true -> token_is c u = true -> balanced o c a -> paired b ->
    paired (bang :: name ++ t :: a ++ u :: b)
| PR_attribute hash bang t u a b : token_is KHash hash = true ->
    bang = [] \/ (exists w, bang = [w] /\ token_is KBang w = true) ->
    token_is KLeftSquare t = true -> token_is KRightSquare u = true -> balanced KLeftSquare KRightSquare a -> paired b ->
    paired (hash :: bang ++ t :: a ++ u :: b).

(** Without exceptions. *)
Inductive matched : list token -> Prop :=
| MT_nil : matched []
| MT_other t ts : bracket t = false -> matched ts -> matched (t :: ts)
| MT_group o c t u a b : In (o, c) brackets -> token_is o t = true -> token_is c u = true ->
    matched a -> matched b -> matched (t :: a ++ u :: b).

Definition number_of (k : tkind) (ts : list token) : nat := List.length (filter (token_is k) ts).
