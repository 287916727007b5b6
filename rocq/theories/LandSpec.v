(** What it means that the keywords and symbols of a construct stand between its
    parts: the colon of a constant between its name and its type, commas between
    the elements of a list.  The tables are written from the syntax of Rust and
    the fields of src/ast.rs; they do not refer to the parser. *)

From Coq Require Import String List Arith Bool.
From Verif Require Import Base Token Schema Value Grammar SpanSpec MarkSpec.
Import ListNotations.
Local Open Scope string_scope.
Local Open Scope list_scope.
Local Open Scope nat_scope.

(** * The tables *)

(** The parts of a construct in source order: a field; a token that is always
    there, one of the list; a token that is there if the field is. *)
Inductive piece : Type := Part (f : string) | Word (ks : list tkind) | WordOf (f : string) (ks : list tkind).

Definition opening : list tkind := [KLeftParen; KLeftSquare; KLeftCurly].
Definition closing : list tkind := [KRightParen; KRightSquare; KRightCurly].
Definition range_inclusive : list tkind := [KTriplePeriod; KDoublePeriodEquals].

Definition wheres : list piece := [WordOf "wheres" [KWhere]; Part "wheres"].
Definition signature : list piece :=
  [Word [KFn]; Part "name"; Part "generics"; Word [KLeftParen]; Part "arguments"; Word [KRightParen]; WordOf "return_type" [KThinArrow]; Part "return_type"] ++ wheres.

Definition shapes : list (string * list piece) :=
  (* items *)
  [("FunctionHeader", [Part "visibility"; Part "qualifiers"] ++ signature);
   ("TraitImplFunctionHeader", [Part "visibility"; Part "qualifiers"] ++ signature);
   ("ExternBlockMemberFunction", [Part "visibility"] ++ signature ++ [Word [KSemicolon]]);
   ("GenericDeclarations", [Word [KLeftAngle]; Part "lifetimes"; Part "types"; Part "consts"; Word [KRightAngle]]);
   ("GenericDeclarationLifetime", [Part "name"; WordOf "bounds" [KColon]; Part "bounds"]);
   ("GenericDeclarationType", [Part "name"; WordOf "bounds" [KColon]; Part "bounds"; WordOf "default" [KEquals]; Part "default"]);
   ("GenericDeclarationConst", [Word [KConst]; Part "name"; Word [KColon]; Part "typ"]);
   ("SelfArgumentLonghand", [Part "is_mut"; Part "name"; Word [KColon]; Part "typ"]);
   ("NamedArgument", [Part "name"; Word [KColon]; Part "typ"]);
   ("ExternBlockMemberFunctionArgumentNamed", [Part "name"; Word [KColon]; Part "typ"]);
   ("Where", [WordOf "higher_ranked_trait_bounds" [KFor]; WordOf "higher_ranked_trait_bounds" [KLeftAngle]; Part "higher_ranked_trait_bounds";
              WordOf "higher_ranked_trait_bounds" [KRightAngle]; Part "kind"]);
   ("WhereLifetime", [Part "name"; Word [KColon]; Part "bounds"]);
   ("WhereType", [Part "name"; Word [KColon]; Part "bounds"]);
   ("TraitBoundRelaxed", [Word [KQuestionMark]; Part "typ"]);
   ("Const", [Part "visibility"; Word [KConst]; Part "name"; Word [KColon]; Part "typ"; Word [KEquals]; Part "value"; Word [KSemicolon]]);
   ("Static", [Part "visibility"; Word [KStatic]; Part "is_mut"; Part "name"; Word [KColon]; Part "typ"; Word [KEquals]; Part "value"; Word [KSemicolon]]);
   ("Crate", [Part "visibility"; Word [KExtern]; Word [KCrate]; Part "name"; WordOf "rename" [KAs]; Part "rename"; Word [KSemicolon]]);
   ("ExternBlock", [Word [KExtern]; Part "abi"; Word [KLeftCurly]; Part "members"; Word [KRightCurly]]);
   ("ExternBlockMemberStatic", [Part "visibility"; Word [KStatic]; Part "is_mut"; Part "name"; Word [KColon]; Part "typ"; Word [KSemicolon]]);
   ("ExternBlockMemberType", [Part "visibility"; Word [KType]; Part "name"; Word [KSemicolon]]);
   ("Use", [Part "visibility"; Word [KUse]; Part "path"; Word [KSemicolon]]);
   ("UseTailIdent", [Part "name"; WordOf "rename" [KAs]; Part "rename"]);
   ("UseTailMulti", [Word [KLeftCurly]; Part "paths"; Word [KRightCurly]]);
   ("TypeAlias", [Part "visibility"; Word [KType]; Part "name"; Part "generics"] ++ wheres ++ [Word [KEquals]; Part "defn"; Word [KSemicolon]]);
   ("Module", [Part "visibility"; Word [KMod]; Part "name"; Part "body"]);
   ("Struct", [Part "visibility"; Word [KStruct]; Part "name"; Part "generics"; Part "body"]);
   ("StructDefinitionBodyBrace", [Word [KLeftCurly]; Part "fields"; Word [KRightCurly]]);
   ("StructDefinitionBodyTuple", [Word [KLeftParen]; Part "fields"; Word [KRightParen]]);
   ("StructDefinitionFieldNamed", [Part "visibility"; Part "name"; Word [KColon]; Part "typ"]);
   ("Union", [Part "visibility"; Word [KUnion]; Part "name"; Part "generics"] ++ wheres ++ [Word [KLeftCurly]; Part "fields"; Word [KRightCurly]]);
   ("Enum", [Part "visibility"; Word [KEnum]; Part "name"; Part "generics"] ++ wheres ++ [Word [KLeftCurly]; Part "variants"; Word [KRightCurly]]);
   ("Trait", [Part "visibility"; Part "is_unsafe"; Part "is_auto"; Word [KTrait]; Part "name"; Part "generics"; WordOf "bounds" [KColon]; Part "bounds"] ++ wheres ++
             [Word [KLeftCurly]; Part "members"; Word [KRightCurly]]);
   ("TraitMemberType", [Word [KType]; Part "name"; WordOf "bounds" [KColon]; Part "bounds"; WordOf "default" [KEquals]; Part "default"; Word [KSemicolon]]);
   ("TraitMemberConst", [Word [KConst]; Part "name"; Word [KColon]; Part "typ"; WordOf "value" [KEquals]; Part "value"; Word [KSemicolon]]);
   ("VisibilityPublic", [Word [KPub]; WordOf "qualifier" [KLeftParen]; Part "qualifier"; WordOf "qualifier" [KRightParen]]);
   ("Impl", [Part "is_unsafe"; Word [KImpl]; Part "generics"; Part "kind"] ++ wheres ++ [Word [KLeftCurly]; Part "body"; Word [KRightCurly]]);
   ("ImplOfTrait", [Part "is_negative"; Part "trait_name"; Word [KFor]; Part "type_name"]);
   ("ImplType", [Word [KType]; Part "name"; Word [KEquals]; Part "typ"; Word [KSemicolon]]);
   ("ImplConst", [Part "visibility"; Word [KConst]; Part "name"; Word [KColon]; Part "typ"; Word [KEquals]; Part "value"; Word [KSemicolon]]);
   ("AttributeLiteral", [Word [KHash]; Word [KLeftSquare]; Part "text"; Word [KRightSquare]]);
   ("AttributeContainingLiteral", [Word [KHash]; Word [KBang]; Word [KLeftSquare]; Part "text"; Word [KRightSquare]]);
  (* types *)
   ("TypeReference", [Word [KAmpersand]; Part "typ"]);
   ("TypeReferenceKind", [Word [KAmpersand]; Part "lifetime"; Part "mutable"]);
   ("TypePointer", [Word [KAsterisk]; Word [KConst; KMut]; Part "typ"]);
   ("TypeTuple", [Word [KLeftParen]; Part "types"; Word [KRightParen]]);
   ("TypeHigherRankedTraitBounds", [Word [KFor]; Word [KLeftAngle]; Part "lifetimes"; Word [KRightAngle]; Part "child"]);
   ("TypeDynTrait", [Word [KDyn]; Part "name"]); ("TypeImplTrait", [Word [KImpl]; Part "name"]);
   ("TypeDisambiguation", [Word [KLeftAngle]; Part "from_type"; Part "to_type"; Word [KRightAngle]; Part "path"]);
   ("TypeArray", [Word [KLeftSquare]; Part "typ"; Word [KSemicolon]; Part "count"; Word [KRightSquare]]);
   ("TypeSlice", [Word [KLeftSquare]; Part "typ"; Word [KRightSquare]]);
   ("TypeGenericsFunction", [Word [KLeftParen]; Part "types"; Word [KRightParen]; WordOf "return_type" [KThinArrow]; Part "return_type"]);
   ("TypeGenericsAngle", [Word [KLeftAngle]; Part "members"; Word [KRightAngle]]);
   ("AssociatedTypeValueEqual", [Word [KEquals]; Part "value"]); ("AssociatedTypeValueBound", [Word [KColon]; Part "bounds"]);
   ("TypeFunction", [Part "qualifiers"; Word [KFn]; Word [KLeftParen]; Part "arguments"; Word [KRightParen]; WordOf "return_type" [KThinArrow]; Part "return_type"]);
   ("TypeFunctionArgumentNamed", [Part "name"; WordOf "name" [KColon]; Part "typ"]);
   ("TraitImplArgumentNamed", [Part "name"; WordOf "name" [KColon]; Part "typ"]);
   ("Turbofish", [Word [KDoubleColon]; Word [KLeftAngle]; Part "lifetimes"; Part "types"; Word [KRightAngle]]);
  (* patterns *)
   ("Pattern", [Part "name"; WordOf "name" [KAt]; Part "kind"]);
   ("PatternTuple", [Word [KLeftParen]; Part "members"; Word [KRightParen]]); ("PatternSlice", [Word [KLeftSquare]; Part "members"; Word [KRightSquare]]);
   ("PatternStruct", [Part "name"; Word [KLeftCurly]; Part "fields"; Word [KRightCurly]]);
   ("PatternStructFieldLong", [Part "name"; Word [KColon]; Part "pattern"]);
   ("PatternReference", [Word [KAmpersand]; Part "is_mut"; Part "pattern"]); ("PatternBox", [Word [KBox]; Part "pattern"]);
   ("PatternRangeExclusive", [Part "start"; Word [KDoublePeriod]; Part "end"]);
   ("PatternRangeInclusive", [Part "start"; Word range_inclusive; Part "end"]);
  (* statements and expressions *)
   ("Block", [Word [KLeftCurly]; Part "statements"; Part "expression"; Word [KRightCurly]]);
   ("Let", [Word [KLet]; Part "pattern"; WordOf "typ" [KColon]; Part "typ"; WordOf "value" [KEquals]; Part "value"]);
   ("MacroCall", [Part "name"; Word [KBang]; Part "arg"; Word opening; Part "args"; Word closing]);
   ("If", [Word [KIf]; Part "condition"; Part "body"; Part "more"; WordOf "else_body" [KElse]; Part "else_body"]);
   ("IfLet", [Word [KIf]; Word [KLet]; Part "pattern"; Word [KEquals]; Part "value"; Part "body"]);
   ("ForLoop", [Part "label"; WordOf "label" [KColon]; Word [KFor]; Part "pattern"; Word [KIn]; Part "iter"; Part "body"]);
   ("Loop", [Part "label"; WordOf "label" [KColon]; Word [KLoop]; Part "body"]);
   ("While", [Part "label"; WordOf "label" [KColon]; Word [KWhile]; Part "value"; Part "body"]);
   ("WhileLet", [Part "label"; WordOf "label" [KColon]; Word [KWhile]; Word [KLet]; Part "pattern"; Word [KEquals]; Part "value"; Part "body"]);
   ("Match", [Word [KMatch]; Part "head"; Word [KLeftCurly]; Part "arms"; Word [KRightCurly]]);
   ("MatchArm", [Part "attributes"; Part "pattern"; WordOf "guard" [KIf]; Part "guard"; Word [KThickArrow]; Part "hand"]);
   ("ArrayExplicit", [Word [KLeftSquare]; Part "values"; Word [KRightSquare]]);
   ("ArrayRepeated", [Word [KLeftSquare]; Part "value"; Word [KSemicolon]; Part "count"; Word [KRightSquare]]);
   ("Closure", [Part "is_async"; Part "is_move"; Word [KPipe]; Part "args"; Word [KPipe]; Part "return_type"; Part "body"]);
   ("ClosureArg", [Part "name"; WordOf "typ" [KColon]; Part "typ"]);
   ("Return", [Word [KReturn]; Part "value"]); ("Continue", [Word [KContinue]; Part "label"]); ("Break", [Word [KBreak]; Part "label"; Part "value"]);
   ("UnsafeBlock", [Word [KUnsafe]; Part "body"]); ("AsyncBlock", [Word [KAsync]; Part "is_move"; Part "body"]);
   ("StructLiteral", [Word [KLeftCurly]; Part "fields"; WordOf "splat" [KDoublePeriod]; Part "splat"; Word [KRightCurly]]);
   ("Disambiguation", [Word [KLeftAngle]; Part "from_type"; Part "to_type"; Word [KRightAngle]; Part "components"]);
   ("Parenthetical", [Word [KLeftParen]; Part "expression"; Word [KRightParen]]); ("Tuple", [Word [KLeftParen]; Part "members"; Word [KRightParen]])].

(** Symbols that may be the first half of a token.  Where a node ends with half a
    token its extent may be wrong, so nothing is said of the end of the node. *)
Definition may_be_half : list tkind := [KLeftAngle; KRightAngle; KPipe; KAmpersand].
Definition is_half (k : tkind) : bool := existsb (tkind_eqb k) may_be_half.

(** The fields of a list of pieces. *)
Definition fields_in (l : list piece) : list string := flat_map (fun x => match x with Part f => [f] | _ => [] end) l.

(** [(left, tokens, right)]: one of the tokens stands between the fields.  No name
    is the start, or the end, of the node. *)
Fixpoint demands (before : list string) (l : list piece) : list (string * list tkind * string) :=
  match l with
  | [] => []
  | Part f :: l' => demands (before ++ [f]) l'
  | Word ks :: l' =>
      flat_map (fun a => map (fun b => (a, ks, b)) (fields_in l' ++ if existsb is_half ks then [] else [""])) ("" :: before) ++ demands before l'
  | WordOf f ks :: l' =>
      (if existsb (String.eqb f) before then map (fun b => (f, ks, b)) (fields_in l') else map (fun a => (a, ks, f)) ("" :: before)) ++ demands before l'
  end.

Definition landmarks : list (string * string * list matcher * string) :=
  flat_map (fun '(k, l) => map (fun '(a, ks, b) => (k, a, words ks, b)) (demands [] l)) shapes.

(** [(node, field, tokens)]: one of the tokens stands between any two neighbours
    of the list in the field. *)
Definition separators : list (string * string * list matcher) :=
  map (fun '(k, f) => (k, f, words [KComma]))
  [("FunctionHeader", "wheres"); ("TraitImplFunctionHeader", "wheres"); ("ExternBlockMemberFunction", "wheres"); ("Union", "wheres");
   ("Enum", "wheres"); ("Trait", "wheres"); ("Impl", "wheres"); ("TypeAlias", "wheres"); ("ExternBlockMemberFunction", "arguments");
   ("GenericDeclarations", "lifetimes"); ("GenericDeclarations", "types"); ("GenericDeclarations", "consts");
   ("Where", "higher_ranked_trait_bounds"); ("Turbofish", "lifetimes"); ("Turbofish", "types"); ("PatternTuple", "members");
   ("PatternSlice", "members"); ("PatternStruct", "fields"); ("StructDefinitionBodyBrace", "fields"); ("StructDefinitionBodyTuple", "fields");
   ("Union", "fields"); ("Enum", "variants"); ("UseTailMulti", "paths"); ("TypeTuple", "types"); ("TypeHigherRankedTraitBounds", "lifetimes");
   ("TypeGenericsFunction", "types"); ("TypeGenericsAngle", "members"); ("ArrayExplicit", "values"); ("Closure", "args");
   ("StructLiteral", "fields"); ("Tuple", "members"); ("Call", "args")]
  ++ map (fun '(k, f, l) => (k, f, words l))
  [("GenericDeclarationLifetime", "bounds", [KPlus]); ("WhereLifetime", "bounds", [KPlus]); ("TraitBounds", "types", [KPlus]); ("Type", "additional", [KPlus]);
   ("Path", "components", [KDoubleColon]); ("PathedIdent", "components", [KDoubleColon]); ("TypeNamed", "path", [KDoubleColon]);
   ("TypeDisambiguation", "path", [KDoubleColon]); ("Disambiguation", "components", [KDoubleColon]); ("MatchArm", "pattern", [KPipe])].

(** Lists whose elements may do without the token behind them: the arms of a
    match, and the statements of a block with the expression that ends it. *)
Definition loose_separators : list (string * string * string * list matcher) :=
  [("Match", "arms", "", words [KComma]); ("Block", "statements", "expression", words [KSemicolon])].

(** * What the tables demand of a value *)

Section Spec.
  Variable W : matcher -> extent -> Prop.

  Definition present (f : string) (v : val) : Prop := f = "" \/ side f v <> [].

  (** [y] lies behind the field [f] of [v], or from the start of [v] on. *)
  Definition behind (f : string) (v : val) (y : extent) : Prop :=
    if String.eqb f "" then forall x, get_field "extent" v = Some (VExt x) -> fst x <= fst y
    else Forall (fun z => snd z <= fst y) (side f v).
  Definition in_front (f : string) (v : val) (y : extent) : Prop :=
    if String.eqb f "" then forall x, get_field "extent" v = Some (VExt x) -> snd y <= snd x
    else Forall (fun z => snd y <= fst z) (side f v).

  (** One of the tokens stands behind everything in [a] and in front of everything
      in [b]. *)
  Definition parted (ms : list matcher) (a b : val) : Prop :=
    exists y, one_of W ms y /\ Forall (fun z => snd z <= fst y) (extents a) /\ Forall (fun z => snd y <= fst z) (extents b).

  Definition neighbours (l : list val) (a b : val) : Prop := exists i, nth_error l i = Some a /\ nth_error l (i + 1) = Some b.

  (** Statements and match arms that need no separator behind them: items, the
      expressions that end with a block, macros in braces, arms with a block. *)
  Definition ends_itself (v : val) : Prop :=
    match v with
    | VVar _ "Item" _ => True
    | VVar _ "Expression" a =>
        exists e t w, get_field "value" a = Some (VVar e t w) /\
          (In t ["Block"; "ForLoop"; "If"; "IfLet"; "Loop"; "Match"; "UnsafeBlock"; "While"; "WhileLet"] \/
           (t = "MacroCall" /\ exists e' w', get_field "args" w = Some (VVar e' "Curly" w')))
    | _ => exists e w, get_field "hand" v = Some (VVar e "Brace" w)
    end.

  Definition node_lands (k : string) (fs : list val) : Prop :=
    let v := VNode k fs in
    (forall l ms r, In (k, l, ms, r) landmarks -> present l v -> present r v -> exists y, one_of W ms y /\ behind l v y /\ in_front r v y) /\
    (forall f ms l a b, In (k, f, ms) separators -> get_field f v = Some (VList l) -> neighbours l a b -> parted ms a b) /\
    (forall f g ms l a b, In (k, f, g, ms) loose_separators -> get_field f v = Some (VList l) ->
       neighbours (l ++ match get_field g v with Some (VSome w) => [w] | _ => [] end) a b -> ends_itself a \/ parted ms a b).

  (** All of this everywhere in a value. *)
  Fixpoint landed (v : val) : Prop :=
    match v with
    | VSome v | VVar _ _ v => landed v
    | VPair a b => landed a /\ landed b
    | VList l => fold_right (fun x P => landed x /\ P) True l
    | VNode k fs => fold_right (fun x P => landed x /\ P) True fs /\ node_lands k fs
    | _ => True
    end.
End Spec.
