(** What it means that a syntax tree is laid out like the source: siblings follow
    one another and extents hold what is below them. *)

From Coq Require Import String List Arith Bool.
From Verif Require Import Base Token Schema Value Grammar.
Import ListNotations.
Local Open Scope string_scope.
Local Open Scope list_scope.
Local Open Scope nat_scope.

(** Everything in [a] ends before anything in [b] starts. *)
Definition before (a b : val) : Prop :=
  forall x y, In x (extents a) -> In y (extents b) -> snd x <= fst y.

(** Every non-empty extent in [v] lies in [x]. *)
Definition within (x : extent) (v : val) : Prop :=
  Forall (fun e => fst e < snd e -> fst x <= fst e /\ snd e <= snd x) (extents v).

(** Nodes whose own extent is always empty. *)
Definition hollow : list string := ["StructLiteralField"; "PatternName"].

(** Pairs of fields that may lie in another order than they are declared in: the
    where clauses of a tuple struct follow its body, the [move] of an asynchronous
    block precedes its body, and the value of a struct literal's field is a copy of
    its name if none is given. *)
Definition unordered : list (string * string * string) :=
  [("Struct", "wheres", "body"); ("AsyncBlock", "body", "is_move"); ("StructLiteralField", "name", "value")].

Definition is_hollow (k : string) : bool := existsb (String.eqb k) hollow.

Definition ordered_pair (k f1 f2 : string) : bool :=
  negb (String.eqb f1 "extent") &&
  negb (existsb (fun x => let '(k', a, b) := x in String.eqb k k' && String.eqb f1 a && String.eqb f2 b) unordered).

Definition field_name (f : string * ty * bool) : string := fst (fst f).

(** Expressions made of a prefix operator: if they have attributes, their own
    extent starts at the attributes. *)
Definition prefix_operation (v : val) : bool :=
  match v with
  | VVar _ t _ => existsb (String.eqb t) ["Box"; "Dereference"; "Range"; "RangeInclusive"; "Reference"; "Unary"]
  | _ => false
  end.

(** The fields of a node lie in the order of their declaration. *)
Definition node_ord (k : string) (fs : list val) : Prop :=
  match struct_fields k with
  | Some fields =>
      ForallOrdPairs (fun x y => ordered_pair k (fst x) (fst y) = true ->
                                 before (snd x) (snd y) \/
                                 (k = "Attributed<Expression>" /\ fst x = "attributes" /\ prefix_operation (snd y) = true))
        (combine (map field_name fields) fs)
  | None => True
  end.

(** A node's own extent holds the rest of it. *)
Definition node_in (k : string) (fs : list val) : Prop :=
  is_hollow k = false -> forall x, get_field "extent" (VNode k fs) = Some (VExt x) -> within x (VList fs).

(** The parts of a number follow one another. *)
Definition num_ord (n : number) : Prop :=
  ForallOrdPairs before [VExt (n_integral n); vopt (n_fractional n); vopt (n_exponent n); vopt (n_type_suffix n)].

(** All of this everywhere in a value. *)
Fixpoint laid_out (v : val) : Prop :=
  match v with
  | VSome v | VVar _ _ v => laid_out v
  | VPair a b => laid_out a /\ laid_out b
  | VList l => fold_right (fun x P => laid_out x /\ P) True l /\ ForallOrdPairs before l
  | VNode k fs => fold_right (fun x P => laid_out x /\ P) True fs /\ node_ord k fs /\ node_in k fs
  | VNum n => within (n_extent n) v /\ num_ord n
  | _ => True
  end.

(** [part_of w v]: the value [w] occurs in [v]. *)
Inductive part_of (w : val) : val -> Prop :=
| part_self : part_of w w
| part_some v : part_of w v -> part_of w (VSome v)
| part_var e t v : part_of w v -> part_of w (VVar e t v)
| part_left a b : part_of w a -> part_of w (VPair a b)
| part_right a b : part_of w b -> part_of w (VPair a b)
| part_elem v l : In v l -> part_of w v -> part_of w (VList l)
| part_field v k fs : In v fs -> part_of w v -> part_of w (VNode k fs).

(** Field [a] is declared in front of field [b] in the struct [k]. *)
Definition declared_before (k a b : string) : Prop :=
  exists fields i j, struct_fields k = Some fields /\ i < j /\
    nth_error (map field_name fields) i = Some a /\ nth_error (map field_name fields) j = Some b.
