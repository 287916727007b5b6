(** What it means that a node that holds lists drops no token but behind the last
    element of one of its lists.  Nothing here refers to the parser. *)

From Coq Require Import String List Arith Bool.
From Verif Require Import Base Token Schema Value Grammar SpanSpec MarkSpec LandSpec Expect CoverSpec.
Import ListNotations.
Local Open Scope string_scope.
Local Open Scope list_scope.
Local Open Scope nat_scope.

(** The lists of a construct whose elements may be given up in the middle, by kind
    of node.  What was read of the element is dropped then.  (Statements are given
    up behind the expression that ends a block; the [where] clause of a tuple struct
    stands behind its fields.) *)
Definition frayed : list (string * list string) :=
  [("UseTailMulti", ["paths"]); ("FunctionHeader", ["arguments"; "wheres"]); ("TraitImplFunctionHeader", ["arguments"; "wheres"]);
   ("GenericDeclarations", ["lifetimes"; "types"; "consts"]); ("Type", ["additional"]); ("TypeTuple", ["types"]); ("TypeGenericsFunction", ["types"]);
   ("TypeGenericsAngle", ["members"]); ("Turbofish", ["types"]); ("StructDefinitionBodyBrace", ["fields"]); ("StructDefinitionBodyTuple", ["fields"]);
   ("Union", ["wheres"; "fields"]); ("Enum", ["wheres"; "variants"]); ("EnumVariant", ["body"]); ("TraitBounds", ["types"]);
   ("Block", ["expression"]); ("Parenthetical", ["expression"]); ("Tuple", ["members"]); ("Call", ["args"]);
   ("Match", ["arms"]); ("MatchArm", ["pattern"]); ("ArrayExplicit", ["values"]); ("Closure", ["args"]);
   ("PatternStruct", ["fields"]); ("PatternTuple", ["members"]); ("PatternSlice", ["members"]); ("Trait", ["wheres"]); ("Impl", ["wheres"]);
   ("TypeAlias", ["wheres"]); ("ExternBlockMemberFunction", ["arguments"; "wheres"]); ("Struct", ["wheres"]); ("Disambiguation", []);
   ("TypeDisambiguation", ["path"])].
Definition fraying (k : string) : list string := flat_map (fun '(k', l) => if String.eqb k k' then l else []) frayed.
Definition is_frayed (k : string) : bool := existsb (fun x => String.eqb k (fst x)) frayed.

(** Those of which a part is read by a parser of its own. *)
Definition split_up : list string := ["Struct"; "Disambiguation"; "TypeDisambiguation"].
Definition is_whole (k : string) : bool := negb (existsb (String.eqb k) split_up).

(** Their words: [own_words] and those that the tables of C53 and C54 leave out. *)
Definition frayed_words (k : string) : list tkind :=
  own_words k ++
  flat_map (fun '(k', l) => if String.eqb k k' then l else [])
    [("Block", [KSemicolon]); ("Match", [KComma]); ("Closure", [KThinArrow]); ("PatternStruct", [KDoublePeriod]); ("EnumVariant", [KEquals; KLeftParen; KRightParen; KComma]);
     ("Call", [KLeftParen; KRightParen]); ("Parenthetical", [KComma]); ("StructDefinitionBodyTuple", [KSemicolon]);
     ("Struct", [KWhere; KComma]); ("TypeFunction", [KComma]); ("Disambiguation", [KAs]); ("TypeDisambiguation", [KAs])].

(** The fields of a construct in source order, from the table of C53.  (That a
    [where] clause stands in front of the body of a struct is true of bodies in
    braces; the body of a tuple struct holds its [where] clause.) *)
Definition source_order (k : string) : list string :=
  if String.eqb k "Struct" then ["visibility"; "name"; "generics"; "wheres"; "body"] else
  flat_map (fun '(k', l) => if String.eqb k k' then fields_in l else []) shapes ++
  flat_map (fun '(k', l) => if String.eqb k k' then l else []) [("Type", ["kind"; "additional"]); ("EnumVariant", ["name"; "body"]); ("Call", ["target"; "args"])].
Fixpoint fields_before (f : string) (l : list string) : list string :=
  match l with [] => [] | g :: l' => if String.eqb f g then [] else g :: fields_before f l' end.
Fixpoint fields_after (f : string) (l : list string) : list string :=
  match l with [] => [] | g :: l' => if String.eqb f g then l' else fields_after f l' end.

Definition field_extents (f : string) (v : val) : list extent := match get_field f v with Some w => extents w | None => [] end.
Definition after_all (t : token) (l : list extent) : Prop := forall z, In z l -> snd z <= fst (token_extent t).
Definition before_all (t : token) (l : list extent) : Prop := forall z, In z l -> snd (token_extent t) <= fst z.

(** The token stands behind all the elements of one of the lists, behind the fields
    in front of that list, and in front of the fields behind it. *)
Definition dropped_at (f : string) (k : string) (fs : list val) (t : token) : Prop :=
  after_all t (field_extents f (VNode k fs)) /\
  (forall g, In g (fields_before f (source_order k)) -> after_all t (field_extents g (VNode k fs))) /\
  (forall g, In g (fields_after f (source_order k)) -> before_all t (field_extents g (VNode k fs))).

(** The same without the elements of the list itself. *)
Definition dropped_among (f : string) (k : string) (fs : list val) (t : token) : Prop :=
  (forall g, In g (fields_before f (source_order k)) -> after_all t (field_extents g (VNode k fs))) /\
  (forall g, In g (fields_after f (source_order k)) -> before_all t (field_extents g (VNode k fs))).

(** What the elements of a list may begin with, by kind of node and list: the kinds
    of token, and whether a number may stand there. *)
Definition name_starts : list tkind := [KIdent; KCrate; KDefault; KDyn; KSelfIdent; KUnion].
Definition attribute_starts : list tkind := [KHash; KDocCommentOuterLine; KDocCommentOuterBlock].
Definition literal_starts : list tkind := [KCharacter; KString; KStringRaw; KByte; KByteString; KByteStringRaw].
Definition type_starts : list tkind :=
  name_starts ++ [KLeftAngle; KLeftParen; KLeftSquare; KAmpersand; KAsterisk; KBang; KDoubleColon; KAsync; KConst; KExtern; KFn; KFor; KImpl; KUnsafe].
Definition pattern_starts : list tkind :=
  name_starts ++ literal_starts ++ [KLeftParen; KLeftSquare; KAmpersand; KDoubleColon; KMinus; KBox; KMut; KRef].
Definition expression_starts : list tkind :=
  name_starts ++ literal_starts ++ attribute_starts ++
  [KLeftAngle; KLeftCurly; KLeftParen; KLeftSquare; KAmpersand; KAsterisk; KBang; KDoubleColon; KDoublePeriod; KDoublePeriodEquals; KTriplePeriod; KMinus; KPipe;
   KAsync; KBox; KBreak; KContinue; KFor; KIf; KLet; KLoop; KMatch; KMove; KReturn; KUnsafe; KWhile; KLifetime].
Definition statement_starts : list tkind :=
  expression_starts ++ [KSemicolon; KAuto; KConst; KEnum; KExtern; KFn; KImpl; KMod; KPub; KStatic; KStruct; KTrait; KType; KUse; KDocCommentInnerLine; KDocCommentInnerBlock].
Definition bound_starts : list tkind := name_starts ++ [KDoubleColon; KQuestionMark; KFor; KLifetime].
Definition clause_starts : list tkind := type_starts ++ [KLifetime].

Definition openings : list (string * string * bool * list tkind) :=
  [("UseTailMulti", "paths", false, name_starts ++ [KLeftCurly; KAsterisk]);
   ("FunctionHeader", "arguments", true, attribute_starts ++ pattern_starts); ("FunctionHeader", "wheres", false, clause_starts);
   ("TraitImplFunctionHeader", "arguments", true, attribute_starts ++ pattern_starts ++ type_starts); ("TraitImplFunctionHeader", "wheres", false, clause_starts);
   ("ExternBlockMemberFunction", "arguments", true, attribute_starts ++ pattern_starts ++ [KTriplePeriod]); ("ExternBlockMemberFunction", "wheres", false, clause_starts);
   ("GenericDeclarations", "lifetimes", false, attribute_starts ++ [KLifetime]); ("GenericDeclarations", "types", false, attribute_starts ++ name_starts);
   ("GenericDeclarations", "consts", false, attribute_starts ++ [KConst]);
   ("Type", "additional", false, name_starts ++ [KDoubleColon; KLifetime]); ("TypeTuple", "types", false, type_starts); ("TypeGenericsFunction", "types", false, type_starts);
   ("TypeGenericsAngle", "members", false, clause_starts); ("Turbofish", "types", false, type_starts); ("TypeDisambiguation", "path", false, name_starts);
   ("StructDefinitionBodyBrace", "fields", false, attribute_starts ++ name_starts ++ [KPub]);
   (* a field, or the [where] clause behind the fields *)
   ("StructDefinitionBodyTuple", "fields", false, attribute_starts ++ type_starts ++ [KPub; KWhere]);
   ("Struct", "wheres", false, clause_starts); ("Union", "wheres", false, clause_starts); ("Union", "fields", false, attribute_starts ++ name_starts ++ [KPub]);
   ("Enum", "wheres", false, clause_starts); ("Enum", "variants", false, attribute_starts ++ name_starts); ("EnumVariant", "body", false, attribute_starts ++ type_starts ++ [KPub]);
   ("TraitBounds", "types", false, bound_starts); ("Trait", "wheres", false, clause_starts); ("Impl", "wheres", false, clause_starts); ("TypeAlias", "wheres", false, clause_starts);
   ("Block", "expression", true, statement_starts); ("Parenthetical", "expression", true, expression_starts); ("Tuple", "members", true, expression_starts);
   ("Call", "args", true, expression_starts); ("ArrayExplicit", "values", true, expression_starts);
   ("Match", "arms", true, attribute_starts ++ pattern_starts); ("MatchArm", "pattern", true, pattern_starts); ("Closure", "args", true, pattern_starts);
   ("PatternStruct", "fields", false, name_starts ++ [KMut; KRef; KDoubleColon]); ("PatternTuple", "members", true, pattern_starts ++ [KDoublePeriod]);
   ("PatternSlice", "members", true, pattern_starts ++ [KDoublePeriod])].
Definition opening (k f : string) : bool * list tkind :=
  (existsb (fun '(k', f', b, _) => String.eqb k k' && String.eqb f f' && b) openings,
   flat_map (fun '(k', f', _, l) => if String.eqb k k' && String.eqb f f' then l else []) openings).
Definition opens (k f : string) (t : token) : Prop :=
  match t with Tk w _ => In w (snd (opening k f)) | TkNumber _ => fst (opening k f) = true end.

(** At or in front of the token, and behind the elements of the list, stands a token
    that an element may begin with: an element was begun and given up.  (A token of
    several characters of which the first may end the last element and the rest begin
    the next stands for its rest.) *)
Definition opened (toks : list token) (f k : string) (fs : list val) (x : extent) (t : token) : Prop :=
  exists t0, In t0 toks /\ fst (token_extent t0) <= fst (token_extent t) /\
    if compound t0
    then fst x < snd (token_extent t0) /\
         forall g z, In g (f :: fields_before f (source_order k)) -> In z (field_extents g (VNode k fs)) -> snd z < snd (token_extent t0)
    else lies_in t0 x /\ dropped_at f k fs t0 /\ opens k f t0.

Definition frays (toks : list token) (k : string) (fs : list val) : Prop :=
  forall x t, get_field "extent" (VNode k fs) = Some (VExt x) -> In t toks -> fst (token_extent t) < snd (token_extent t) ->
    compound t = false -> lies_in t x ->
    (exists w e, t = Tk w e /\ In w (frayed_words k)) \/ (exists z, In z (inner_extents k fs) /\ lies_in t z) \/
    exists f, In f (fraying k) /\ dropped_at f k fs t /\ opened toks f k fs x t.

Definition amongst (toks : list token) (f : string) (k : string) (fs : list val) : Prop :=
  forall x t, get_field "extent" (VNode k fs) = Some (VExt x) -> In t toks -> fst (token_extent t) < snd (token_extent t) ->
    compound t = false -> lies_in t x ->
    (exists w e, t = Tk w e /\ In w (frayed_words k)) \/ (exists z, In z (inner_extents k fs) /\ lies_in t z) \/ dropped_among f k fs t.

(** Operations with an operator in front hold the attributes of the expression they
    are, which stand in front of all their parts. *)
Definition led : list (string * list tkind) :=
  [("Unary", [KBang; KMinus]); ("Reference", [KAmpersand; KMut]); ("Dereference", [KAsterisk]); ("ExpressionBox", [KBox]);
   ("Range", [KDoublePeriod]); ("RangeInclusive", [KDoublePeriodEquals; KTriplePeriod])].
Definition is_led (k : string) : bool := existsb (fun x => String.eqb k (fst x)) led.
Definition led_words (k : string) : list tkind := flat_map (fun '(k', l) => if String.eqb k k' then l else []) led.
Definition leads (toks : list token) (k : string) (fs : list val) : Prop :=
  forall x t, get_field "extent" (VNode k fs) = Some (VExt x) -> In t toks -> fst (token_extent t) < snd (token_extent t) ->
    compound t = false -> lies_in t x ->
    (exists w e, t = Tk w e /\ In w (led_words k)) \/ (exists z, In z (inner_extents k fs) /\ lies_in t z) \/
    before_all t (inner_extents k fs).

Fixpoint neat (toks : list token) (v : val) : Prop :=
  match v with
  | VSome v | VVar _ _ v => neat toks v
  | VPair a b => neat toks a /\ neat toks b
  | VList l => fold_right (fun x P => neat toks x /\ P) True l
  | VNode k fs => fold_right (fun x P => neat toks x /\ P) True fs /\ (is_frayed k && is_whole k = true -> frays toks k fs) /\ (is_led k = true -> leads toks k fs)
  | _ => True
  end.
