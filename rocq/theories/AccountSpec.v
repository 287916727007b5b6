(** How a token of a file is accounted for by the tree of the file.  Nothing here
    refers to the parser. *)

From Coq Require Import String List Arith Bool.
From Verif Require Import Base Token Schema Value Grammar SpanSpec MarkSpec LandSpec CoverSpec DropSpec.
Import ListNotations.
Local Open Scope string_scope.
Local Open Scope list_scope.
Local Open Scope nat_scope.

(** The nodes that are a piece of the text themselves: names and literals. *)
Definition leaves : list string :=
  ["Ident"; "Lifetime"; "Number"; "NumberBinary"; "NumberDecimal"; "NumberHexadecimal"; "NumberOctal"; "Character"; "String"; "Byte"; "ByteString"].

(** The words of a construct. *)
Definition words_of (k : string) : list tkind := own_words k ++ frayed_words k ++ led_words k.

(** A value holds the extent itself, not in a node. *)
Inductive bare (z : extent) : val -> Prop :=
| bare_ext : bare z (VExt z)
| bare_some v : bare z v -> bare z (VSome v)
| bare_var e t v : bare z v -> bare z (VVar e t v)
| bare_left a b : bare z a -> bare z (VPair a b)
| bare_right a b : bare z b -> bare z (VPair a b)
| bare_elem v l : In v l -> bare z v -> bare z (VList l).

(** A node of the kind has the extent. *)
Definition node_at (f : val) (k : string) (fs : list val) (x : extent) : Prop :=
  part_of (VNode k fs) f /\ get_field "extent" (VNode k fs) = Some (VExt x).

Inductive accounted (toks : list token) (f : val) (t : token) : Prop :=
(* a keyword or symbol of a construct around it *)
| by_word k fs x w e : node_at f k fs x -> lies_in t x -> t = Tk w e -> In w (words_of k) -> accounted toks f t
(* in a name or literal *)
| by_leaf k fs x : node_at f k fs x -> lies_in t x -> In k leaves -> accounted toks f t
(* in an extent that a node keeps as such: an operator, [mut], the tokens of a macro *)
| by_mark k fs g v z : part_of (VNode k fs) f -> g <> "extent" -> get_field g (VNode k fs) = Some v -> bare z v -> lies_in t z -> accounted toks f t
(* dropped behind a list, by an element that was begun *)
| by_list k fs x g : node_at f k fs x -> lies_in t x -> In g (fraying k) -> dropped_at g k fs t -> opened toks g k fs x t -> accounted toks f t
(* dropped in the type of a function, between the qualifiers and the type returned *)
| by_variadic fs x : node_at f "TypeFunction" fs x -> lies_in t x -> dropped_among "arguments" "TypeFunction" fs t -> accounted toks f t
(* an attribute in front of a prefix operation *)
| by_attribute k fs x : node_at f k fs x -> lies_in t x -> In k (map fst led) -> before_all t (inner_extents k fs) -> accounted toks f t.
