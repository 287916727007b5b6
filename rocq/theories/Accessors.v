(** The methods generated for the types of the AST: [Decompose], [HasExtent] and
    [ExtentIndex] of fuzzy-pickles-derive/src/lib.rs. *)

From Coq Require Import String Ascii List Bool Arith NArith.
From Verif Require Import Base Token Schema Value.
Import ListNotations.
Local Open Scope string_scope.

(** [char::is_lowercase] and [char::to_lowercase] on the characters of the names of
    src/ast.rs, which are ASCII. *)
Definition is_lowercase (c : ascii) : bool := ((97 <=? N_of_ascii c) && (N_of_ascii c <=? 122))%N.
Definition to_lowercase (c : ascii) : ascii :=
  if ((65 <=? N_of_ascii c) && (N_of_ascii c <=? 90))%N then ascii_of_N (N_of_ascii c + 32) else c.

(** fuzzy-pickles-derive/src/lib.rs:34-47 [camelcase_to_snake_case]. *)
Fixpoint camelcase_to_snake_case (camelcase : string) : string :=
  match camelcase with
  | EmptyString => EmptyString
  | String c s => if is_lowercase c then String c (camelcase_to_snake_case s) else String "_" (String (to_lowercase c) (camelcase_to_snake_case s))
  end.

(** The enums of src/ast.rs without [#[derive(Decompose)]] (lines 423, 1781, 1805,
    2950). *)
Definition plain_enums : list string := ["TypePointerKind"; "UnaryOp"; "BinaryOp"; "VisibilityPublicQualifier"].
Definition decomposed (e : string) : bool := existsb (fun d => String.eqb e (fst d)) enums && negb (existsb (String.eqb e) plain_enums).

(** The variant that the method [name] of the enum [e] is generated for; [prefix] is
    [into], [as] or [is] (lines 211, 225, 239). *)
Definition variant_of (prefix e name : string) : option string :=
  match enum_variants e with
  | Some vs => find (fun x => String.eqb (prefix ++ camelcase_to_snake_case x) name) (map fst vs)
  | None => None
  end.

(** Lines 209-221 [into_*] and 223-235 [as_*], which differ in whether they take the
    value or a reference to it; [None] if [e] has no such method. *)
Definition call_payload (prefix e name : string) (v : val) : option (option val) :=
  match variant_of prefix e name with
  | Some x => Some (match v with VVar _ y p => if String.eqb x y then Some p else None | _ => None end)
  | None => None
  end.
Definition call_into : string -> string -> val -> option (option val) := call_payload "into".
Definition call_as : string -> string -> val -> option (option val) := call_payload "as".

(** Lines 237-249 [is_*]. *)
Definition call_is (e name : string) (v : val) : option bool :=
  match variant_of "is" e name with
  | Some x => Some (match v with VVar _ y _ => String.eqb x y | _ => false end)
  | None => None
  end.

(** The other enums without [#[derive(HasExtent, ExtentIndex)]] (lines 990, 997, 1064,
    2312). *)
Definition extentless_enums : list string := ["EnumVariantBody"; "Argument"; "TraitImplArgument"; "PatternStructField"].

(** The types of src/ast.rs with [HasExtent] (derived, or src/ast.rs:1305-1309 for
    [Attributed]); all of them but [Attributed] have [ExtentIndex]. *)
Definition has_extent (k : string) : bool :=
  (existsb (fun d => String.eqb k (fst d)) structs && negb (String.eqb k "File")) || (decomposed k && negb (existsb (String.eqb k) extentless_enums)).

(** Lines 300-322 [impl_extent_index]: [code[node]]; [None] is the panic.  ([extent_of]
    is lines 260-298 [impl_has_extent].) *)
Definition index_text (code : text) (v : val) : option text :=
  match extent_of v with Some e => slice code e | None => None end.
