(** Values handled by the parser: the AST of src/ast.rs and the intermediate
    results of the parser functions, as generic trees described by [Schema]. *)

From Coq Require Import String List Bool Arith.
From Verif Require Import Base Token Schema.
Import ListNotations.
Local Open Scope string_scope.

(** src/parser/mod.rs:49-53 [TokenPoint]: the slice [s] is always the suffix of
    the token array that starts at [offset], so only the numbers are kept. *)
Record point : Type := mkPt { off : nat; sub : option nat }.

(** A Rust value.  [VNode k fs] is a struct [k] with its fields in declaration
    order, [VVar e v p] the variant [v] of enum [e] with payload [p] ([VUnit]
    when it has none).  [Box] is transparent; tuples are nested pairs. *)
Inductive val : Type :=
| VExt (e : extent)
| VBool (b : bool)
| VNat (n : nat)
| VPoint (p : point)
| VNum (n : number)
| VUnit
| VNone
| VSome (v : val)
| VList (l : list val)
| VPair (a b : val)
| VNode (k : string) (fs : list val)
| VVar (e v : string) (p : val).

(** Internal structs and enums of the parser that are not part of the AST. *)
Definition internal_structs : list (string * list (string * ty * bool)) :=
  [ (* src/parser/mod.rs:2369-2373 *)
    ("DisambiguationCore",
     [("from_type", TN "Type", true); ("to_type", TOpt (TN "TypeNamed"), true);
      ("whitespace", TList (TN "Whitespace"), true)]);
    (* src/ast.rs:1298-1303 at [T = OperatorPrefix] *)
    ("Attributed<OperatorPrefix>",
     [("extent", TExt, true); ("attributes", TList (TN "Attribute"), true);
      ("value", TN "OperatorPrefix", true); ("whitespace", TList (TN "Whitespace"), false)])].

Definition internal_enums : list (string * list (string * option ty)) :=
  [ (* src/parser/expression.rs:152-161 *)
    ("OperatorPrefix",
     [("Box", Some TExt); ("Dereference", Some TExt); ("Negate", Some TExt); ("Not", Some TExt);
      ("RangeExclusive", Some TExt); ("RangeInclusive", Some (TN "RangeInclusiveOperator"));
      ("Reference", Some (TOpt TExt))]);
    (* src/parser/expression.rs:163-196 *)
    ("OperatorInfix",
     [("Add", Some TExt); ("AddAssign", Some TExt); ("Assign", Some TExt);
      ("BitwiseAnd", Some TExt); ("BitwiseAndAssign", Some TExt); ("BitwiseOr", Some TExt);
      ("BitwiseOrAssign", Some TExt); ("BitwiseXor", Some TExt); ("BitwiseXorAssign", Some TExt);
      ("BooleanAnd", Some TExt); ("BooleanOr", Some TExt); ("Div", Some TExt);
      ("DivAssign", Some TExt); ("Equal", Some TExt); ("GreaterThan", Some TExt);
      ("GreaterThanOrEqual", Some TExt); ("LessThan", Some TExt); ("LessThanOrEqual", Some TExt);
      ("Mod", Some TExt); ("ModAssign", Some TExt); ("Mul", Some TExt); ("MulAssign", Some TExt);
      ("NotEqual", Some TExt); ("RangeExclusive", Some TExt);
      ("RangeInclusive", Some (TN "RangeInclusiveOperator")); ("ShiftLeft", Some TExt);
      ("ShiftLeftAssign", Some TExt); ("ShiftRight", Some TExt); ("ShiftRightAssign", Some TExt);
      ("Sub", Some TExt); ("SubAssign", Some TExt)]);
    (* src/parser/expression.rs:208-216 *)
    ("OperatorPostfix",
     [("Ascription", Some (TN "Type")); ("AsType", Some (TN "Type"));
      ("Call", Some (TList (TN "Attributed<Expression>"))); ("FieldAccess", Some (TN "FieldName"));
      ("Slice", Some (TN "Attributed<Expression>")); ("Try", Some TExt)]);
    (* src/parser/expression.rs:268-272 *)
    ("PrefixOrAtom",
     [("Prefix", Some (TN "Attributed<OperatorPrefix>")); ("Atom", Some (TN "Attributed<Expression>"))]);
    (* src/parser/expression.rs:283-287 *)
    ("InfixOrPostfix", [("Infix", Some (TN "OperatorInfix")); ("Postfix", Some (TN "OperatorPostfix"))])].

Fixpoint assoc {A} (k : string) (l : list (string * A)) : option A :=
  match l with
  | [] => None
  | (k', a) :: l' => if String.eqb k k' then Some a else assoc k l'
  end.

Definition struct_fields (k : string) : option (list (string * ty * bool)) :=
  assoc k (structs ++ internal_structs).

Definition enum_variants (k : string) : option (list (string * option ty)) :=
  assoc k (enums ++ internal_enums).

(** What Rust's type checker guarantees: [typed v t] says that the value [v]
    is a well-formed value of type [t]. *)
Inductive typed : val -> ty -> Prop :=
| T_Ext e : typed (VExt e) TExt
| T_Bool b : typed (VBool b) TBool
| T_Nat n : typed (VNat n) TNat
| T_Point p : typed (VPoint p) TPoint
| T_Num n : typed (VNum n) TNumber
| T_Unit : typed VUnit TUnit
| T_None t : typed VNone (TOpt t)
| T_Some v t : typed v t -> typed (VSome v) (TOpt t)
| T_List l t : (forall v, In v l -> typed v t) -> typed (VList l) (TList t)
| T_Pair a b ta tb : typed a ta -> typed b tb -> typed (VPair a b) (TPair ta tb)
| T_Node k fs fields :
    struct_fields k = Some fields ->
    Forall2 (fun v f => typed v (snd (fst f))) fs fields ->
    typed (VNode k fs) (TN k)
| T_Var e v p vs t :
    enum_variants e = Some vs -> assoc v vs = Some (Some t) ->
    typed p t -> typed (VVar e v p) (TN e)
| T_Var0 e v vs :
    enum_variants e = Some vs -> assoc v vs = Some None ->
    typed (VVar e v VUnit) (TN e).

(** Induction over values with the nested lists. *)
Section val_ind.
  Variable P : val -> Prop.
  Hypothesis HExt : forall e, P (VExt e).
  Hypothesis HBool : forall b, P (VBool b).
  Hypothesis HNat : forall n, P (VNat n).
  Hypothesis HPoint : forall p, P (VPoint p).
  Hypothesis HNum : forall n, P (VNum n).
  Hypothesis HUnit : P VUnit.
  Hypothesis HNone : P VNone.
  Hypothesis HSome : forall v, P v -> P (VSome v).
  Hypothesis HList : forall l, Forall P l -> P (VList l).
  Hypothesis HPair : forall a b, P a -> P b -> P (VPair a b).
  Hypothesis HNode : forall k fs, Forall P fs -> P (VNode k fs).
  Hypothesis HVar : forall e v p, P p -> P (VVar e v p).
  Fixpoint val_rect' (v : val) : P v :=
    let fix go (l : list val) : Forall P l :=
        match l with
        | [] => Forall_nil P
        | x :: l' => Forall_cons x (val_rect' x) (go l')
        end in
    match v with
    | VExt e => HExt e
    | VBool b => HBool b
    | VNat n => HNat n
    | VPoint p => HPoint p
    | VNum n => HNum n
    | VUnit => HUnit
    | VNone => HNone
    | VSome v => HSome v (val_rect' v)
    | VList l => HList l (go l)
    | VPair a b => HPair a b (val_rect' a) (val_rect' b)
    | VNode k fs => HNode k fs (go fs)
    | VVar e v p => HVar e v p (val_rect' p)
    end.
End val_ind.
Definition val_ind' := val_rect'.

(** All extents occurring anywhere in a value, in traversal order. *)
Definition number_extents (n : number) : list extent :=
  let o x := match x with Some e => [e] | None => [] end in
  n_extent n :: n_integral n :: o (n_fractional n) ++ o (n_exponent n) ++ o (n_type_suffix n).

Fixpoint extents (v : val) : list extent :=
  match v with
  | VExt e => [e]
  | VNum n => number_extents n
  | VSome v => extents v
  | VList l => flat_map extents l
  | VPair a b => extents a ++ extents b
  | VNode _ fs => flat_map extents fs
  | VVar _ _ p => extents p
  | _ => []
  end.

(** All points occurring in a value (intermediate results only). *)
Fixpoint points (v : val) : list point :=
  match v with
  | VPoint p => [p]
  | VSome v => points v
  | VList l => flat_map points l
  | VPair a b => points a ++ points b
  | VNode _ fs => flat_map points fs
  | VVar _ _ p => points p
  | _ => []
  end.

(** Field projection by name, driven by the schema. *)
Fixpoint field_index (f : string) (fields : list (string * ty * bool)) : option nat :=
  match fields with
  | [] => None
  | (f', _, _) :: fields' =>
      if String.eqb f f' then Some 0 else option_map S (field_index f fields')
  end.

Definition get_field (f : string) (v : val) : option val :=
  match v with
  | VNode k fs =>
      match struct_fields k with
      | Some fields =>
          match field_index f fields with
          | Some i => nth_error fs i
          | None => None
          end
      | None => None
      end
  | _ => None
  end.

(** [HasExtent::extent] as derived (crate fuzzy-pickles-derive): a struct's
    [extent] field (always declared first), an enum's payload. *)
Fixpoint extent_of (v : val) : option extent :=
  match v with
  | VExt e => Some e
  | VNode _ (VExt e :: _) => Some e
  | VVar _ _ p => extent_of p
  | _ => None
  end.
