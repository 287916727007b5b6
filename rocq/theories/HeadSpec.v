(** Where a struct literal may not stand: bare in the head of a control-flow
    expression, in front of its block.  Nothing here refers to the parser. *)

From Coq Require Import String List Arith Bool.
From Verif Require Import Base Schema Value SpanSpec.
Import ListNotations.
Local Open Scope string_scope.
Local Open Scope list_scope.
Local Open Scope nat_scope.

(** The fields that are followed by a block or by the arms of a [match]. *)
Definition heads : list (string * string) :=
  [("If", "condition"); ("IfLet", "value"); ("While", "value"); ("WhileLet", "value"); ("ForLoop", "iter"); ("Match", "head")].

(** The fields that stand between parentheses or brackets, and those of the arms of
    a [match]: what is in there is not bare. *)
Definition sheltered : list (string * string) :=
  [("Parenthetical", "expression"); ("Tuple", "members"); ("Call", "args"); ("Slice", "index");
   ("ArrayExplicit", "values"); ("ArrayRepeated", "value"); ("MatchArm", "guard"); ("MatchArm", "hand")].

(** The name of the [i]-th field of a struct. *)
Definition field_at (k : string) (i : nat) : option string :=
  match struct_fields k with Some fields => nth_error (map field_name fields) i | None => None end.

(** [bare_in w v]: the value [w] occurs in [v] outside all sheltered fields. *)
Inductive bare_in (w : val) : val -> Prop :=
| bare_self : bare_in w w
| bare_some v : bare_in w v -> bare_in w (VSome v)
| bare_var e t v : bare_in w v -> bare_in w (VVar e t v)
| bare_left a b : bare_in w a -> bare_in w (VPair a b)
| bare_right a b : bare_in w b -> bare_in w (VPair a b)
| bare_elem v l : In v l -> bare_in w v -> bare_in w (VList l)
| bare_field i v k fs : nth_error fs i = Some v -> (forall f, field_at k i = Some f -> ~ In (k, f) sheltered) ->
    bare_in w v -> bare_in w (VNode k fs).
