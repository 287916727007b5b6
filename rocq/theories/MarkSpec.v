(** What it means that extents mark what they are named for: a marker field such
    as [is_mut] covers the keyword, and a node starts and ends with the tokens of
    its syntax.  The tables are written from the syntax of Rust and from the
    comments and names of src/ast.rs; they do not refer to the parser. *)

From Coq Require Import String List Arith Bool.
From Verif Require Import Base Token Tokenizer TokenizerSpec Schema Value Grammar Extents SpanSpec.
Import ListNotations.
Local Open Scope string_scope.
Local Open Scope list_scope.
Local Open Scope nat_scope.

(** * Tokens and pieces of tokens *)

(** The ways to read a symbol token of kind [k] that lies at [(s, e)] as one or
    several symbols. *)
Definition readings (k : tkind) (s e : nat) : list (list (tkind * extent)) :=
  [(k, (s, e))] ::
  match k with
  | KDoubleLeftAngle => [[(KLeftAngle, (s, s + 1)); (KLeftAngle, (s + 1, e))]]
  | KDoubleRightAngle => [[(KRightAngle, (s, s + 1)); (KRightAngle, (s + 1, e))]]
  | KGreaterThanOrEquals => [[(KRightAngle, (s, s + 1)); (KEquals, (s + 1, e))]]
  | KDoublePipe => [[(KPipe, (s, s + 1)); (KPipe, (s + 1, e))]]
  | KDoubleAmpersand => [[(KAmpersand, (s, s + 1)); (KAmpersand, (s + 1, e))]]
  | KShiftRightEquals =>
      [[(KRightAngle, (s, s + 1)); (KGreaterThanOrEquals, (s + 1, e))];
       [(KRightAngle, (s, s + 1)); (KRightAngle, (s + 1, s + 2)); (KEquals, (s + 2, e))]]
  | _ => []
  end.

(** [written ts m x]: the extent [x] is that of a token of [ts], or of a piece of
    a compound symbol, that a parser of [m] accepts. *)
Definition written (ts : list token) (m : matcher) (x : extent) : Prop :=
  match m with
  | MK k => exists k' s e ps, In (Tk k' (s, e)) ts /\ In ps (readings k' s e) /\ In (k, x) ps
  | MNumber => exists n, In (TkNumber n) ts /\ x = n_extent n
  end.

(** [spells X code m x]: the text at [x] is that of such a token or piece. *)
Definition spells (X : xid) (code : text) (m : matcher) (x : extent) : Prop :=
  match m with
  | MK KEndOfFile => x = (blen code, blen code)
  | MK k =>
      match keyword_spelling k, symbol_spelling k with
      | Some s, _ | None, Some s => slice code x = Some (str s)
      | None, None => exists pre w rest, code = pre ++ w ++ rest /\ x = (blen pre, blen pre + blen w) /\ lexical X k w rest
      end
  | MNumber => exists pre s n rest, code = pre ++ s /\ number_token X s (blen pre) n rest /\ x = n_extent n
  end.

(** Both: a token, and its text. *)
Definition reads (X : xid) (code : text) (m : matcher) (x : extent) : Prop :=
  spells X code m x /\ exists ts, tokenize X code = TokOk ts /\ written ts m x.

(** The number tokens, and those of the text. *)
Definition numbers (ts : list token) (n : number) : Prop := In (TkNumber n) ts.
Definition reads_number (X : xid) (code : text) (n : number) : Prop :=
  (exists pre s rest, code = pre ++ s /\ number_token X s (blen pre) n rest) /\ exists ts, tokenize X code = TokOk ts /\ numbers ts n.

Definition one_of (W : matcher -> extent -> Prop) (ms : list matcher) (x : extent) : Prop :=
  exists m, In m ms /\ W m x.

(** * The tables *)

Definition words (l : list tkind) : list matcher := map MK l.

(** Identifiers, and the keywords that the parser takes for identifiers. *)
Definition name : list tkind := [KIdent; KSelfIdent; KDyn; KUnion; KDefault].
Definition vis : list tkind := [KPub; KCrate].
Definition qualifiers : list tkind := [KDefault; KConst; KUnsafe; KAsync; KExtern].
Definition strings : list tkind := [KString; KStringRaw].
Definition byte_strings : list tkind := [KByteString; KByteStringRaw].
Definition pathed : list tkind := [KDoubleColon; KCrate] ++ name.
Definition outer : list tkind := [KHash; KDocCommentOuterLine; KDocCommentOuterBlock].

(** The tokens that fields of type [Extent] and [Option<Extent>] mark. *)
Definition markers : list (string * string * list matcher) :=
  map (fun '(k, f, l) => (k, f, words l))
  [("FunctionQualifiers", "is_default", [KDefault]); ("FunctionQualifiers", "is_const", [KConst]);
   ("FunctionQualifiers", "is_unsafe", [KUnsafe]); ("FunctionQualifiers", "is_async", [KAsync]);
   ("FunctionQualifiers", "is_extern", [KExtern]);
   ("TypeReferenceKind", "mutable", [KMut]); ("Static", "is_mut", [KMut]); ("SelfArgumentLonghand", "is_mut", [KMut]);
   ("AsyncBlock", "is_move", [KMove]); ("Closure", "is_async", [KAsync]); ("Closure", "is_move", [KMove]);
   ("Reference", "is_mutable", [KMut]);
   ("Character", "value", [KCharacter; KByte]); ("String", "value", strings ++ byte_strings);
   ("PatternName", "is_ref", [KRef]); ("PatternName", "is_mut", [KMut]);
   ("PatternIdent", "is_ref", [KRef]); ("PatternIdent", "is_mut", [KMut]);
   ("PatternSliceSubslice", "is_ref", [KRef]); ("PatternSliceSubslice", "is_mut", [KMut]);
   ("PatternNumber", "is_negative", [KMinus]); ("PatternReference", "is_mut", [KMut]);
   ("Trait", "is_unsafe", [KUnsafe]); ("Trait", "is_auto", [KAuto]); ("Impl", "is_unsafe", [KUnsafe]);
   ("ImplOfTrait", "is_negative", [KBang]);
   (* nodes of one token *)
   ("Ident", "extent", [KCrate; KLifetime] ++ name); ("Lifetime", "extent", [KLifetime]);
   ("Byte", "extent", [KByte]); ("ByteString", "extent", byte_strings); ("Character", "extent", [KCharacter; KByte]);
   ("String", "extent", strings ++ byte_strings); ("ExternBlockMemberStatic", "is_mut", [KMut])].

(** The tokens that the payloads of variants mark. *)
Definition payloads : list (string * string * list matcher) :=
  map (fun '(k, f, l) => (k, f, words l))
  [("Attribute", "DocCommentLine", [KDocCommentOuterLine]); ("Attribute", "DocCommentBlock", [KDocCommentOuterBlock]);
   ("AttributeContaining", "DocCommentLine", [KDocCommentInnerLine]);
   ("AttributeContaining", "DocCommentBlock", [KDocCommentInnerBlock]);
   ("TypeKind", "Uninhabited", [KBang]); ("TypeFunctionArgument", "Variadic", [KTriplePeriod]);
   ("StructDefinitionBody", "Empty", [KSemicolon]); ("SelfArgumentShorthandQualifier", "Mut", [KMut]);
   ("RangeInclusiveOperator", "Legacy", [KTriplePeriod]); ("RangeInclusiveOperator", "Recommended", [KDoublePeriodEquals]);
   ("PatternTupleMember", "Wildcard", [KDoublePeriod]); ("PatternSliceMember", "Wildcard", [KDoublePeriod]);
   ("ImplOfTraitType", "Wildcard", [KDoublePeriod]); ("Visibility", "Crate", [KCrate]);
   (* operators, src/parser/expression.rs:152-236 *)
   ("OperatorInfix", "Add", [KPlus]); ("OperatorInfix", "AddAssign", [KPlusEquals]); ("OperatorInfix", "Assign", [KEquals]);
   ("OperatorInfix", "BitwiseAnd", [KAmpersand]); ("OperatorInfix", "BitwiseAndAssign", [KAmpersandEquals]);
   ("OperatorInfix", "BitwiseOr", [KPipe]); ("OperatorInfix", "BitwiseOrAssign", [KPipeEquals]);
   ("OperatorInfix", "BitwiseXor", [KCaret]); ("OperatorInfix", "BitwiseXorAssign", [KCaretEquals]);
   ("OperatorInfix", "BooleanAnd", [KDoubleAmpersand]); ("OperatorInfix", "BooleanOr", [KDoublePipe]);
   ("OperatorInfix", "Div", [KSlash]); ("OperatorInfix", "DivAssign", [KDivideEquals]);
   ("OperatorInfix", "Equal", [KDoubleEquals]); ("OperatorInfix", "NotEqual", [KNotEqual]);
   ("OperatorInfix", "GreaterThan", [KRightAngle]); ("OperatorInfix", "GreaterThanOrEqual", [KGreaterThanOrEquals]);
   ("OperatorInfix", "LessThan", [KLeftAngle]); ("OperatorInfix", "LessThanOrEqual", [KLessThanOrEquals]);
   ("OperatorInfix", "Mod", [KPercent]); ("OperatorInfix", "ModAssign", [KPercentEquals]);
   ("OperatorInfix", "Mul", [KAsterisk]); ("OperatorInfix", "MulAssign", [KTimesEquals]);
   ("OperatorInfix", "RangeExclusive", [KDoublePeriod]);
   ("OperatorInfix", "ShiftLeft", [KDoubleLeftAngle]); ("OperatorInfix", "ShiftLeftAssign", [KShiftLeftEquals]);
   ("OperatorInfix", "ShiftRight", [KDoubleRightAngle]); ("OperatorInfix", "ShiftRightAssign", [KShiftRightEquals]);
   ("OperatorInfix", "Sub", [KMinus]); ("OperatorInfix", "SubAssign", [KMinusEquals]);
   ("OperatorPostfix", "Try", [KQuestionMark]);
   ("OperatorPrefix", "Box", [KBox]); ("OperatorPrefix", "Dereference", [KAsterisk]); ("OperatorPrefix", "Negate", [KMinus]);
   ("OperatorPrefix", "Not", [KBang]); ("OperatorPrefix", "RangeExclusive", [KDoublePeriod]);
   ("OperatorPrefix", "Reference", [KMut])]
  ++ [("FieldName", "Number", [MNumber])].

(** The first and the last token of a node.  Nothing is said of the end of nodes
    that may end with [>]: their extent may end too early (C34). *)
Definition first_last : list (string * list matcher * option (list matcher)) :=
  map (fun '(k, a, b) => (k, words a, Some (words b)))
  [("ArrayExplicit", [KLeftSquare], [KRightSquare]); ("ArrayRepeated", [KLeftSquare], [KRightSquare]);
   ("AsyncBlock", [KAsync], [KRightCurly]);
   ("AttributeContainingLiteral", [KHash], [KRightSquare]); ("AttributeLiteral", [KHash], [KRightSquare]);
   ("Attributed<ExternBlockMember>", outer ++ vis ++ [KStatic; KType; KFn], [KSemicolon]);
   ("Attributed<ImplMember>", outer ++ vis ++ qualifiers ++ [KFn; KType] ++ pathed, [KSemicolon; KRightCurly]);
   ("Attributed<TraitMember>", outer ++ vis ++ qualifiers ++ [KFn; KType] ++ pathed, [KSemicolon; KRightCurly]);
   ("Block", [KLeftCurly], [KRightCurly]);
   ("Byte", [KByte], [KByte]); ("ByteString", byte_strings, byte_strings);
   ("Character", [KCharacter; KByte], [KCharacter; KByte]);
   ("Const", vis ++ [KConst], [KSemicolon]);
   ("Continue", [KContinue], [KContinue; KLifetime]);
   ("Crate", vis ++ [KExtern], [KSemicolon]);
   ("Enum", vis ++ [KEnum], [KRightCurly]);
   ("ExternBlock", [KExtern], [KRightCurly]);
   ("ExternBlockMemberFunction", vis ++ [KFn], [KSemicolon]);
   ("ExternBlockMemberFunctionArgumentVariadic", [KTriplePeriod], [KTriplePeriod]);
   ("ExternBlockMemberStatic", vis ++ [KStatic], [KSemicolon]);
   ("ExternBlockMemberType", vis ++ [KType], [KSemicolon]);
   ("ForLoop", [KLifetime; KFor], [KRightCurly]);
   ("Function", vis ++ qualifiers ++ [KFn], [KRightCurly]);
   ("FunctionQualifiers", qualifiers, qualifiers ++ strings);
   ("Ident", [KCrate; KLifetime] ++ name, [KCrate; KLifetime] ++ name);
   ("If", [KIf], [KRightCurly]); ("IfLet", [KIf], [KRightCurly]);
   ("Impl", [KUnsafe; KImpl], [KRightCurly]);
   ("ImplConst", vis ++ [KConst], [KSemicolon]);
   ("ImplFunction", vis ++ qualifiers ++ [KFn], [KRightCurly]);
   ("ImplType", [KType], [KSemicolon]);
   ("Lifetime", [KLifetime], [KLifetime]);
   ("Loop", [KLifetime; KLoop], [KRightCurly]);
   ("MacroCall", pathed, [KSemicolon; KRightCurly; KRightParen; KRightSquare]);
   ("Match", [KMatch], [KRightCurly]);
   ("Module", vis ++ [KMod], [KRightCurly; KSemicolon]);
   ("Parenthetical", [KLeftParen], [KRightParen]);
   ("PatternSlice", [KLeftSquare], [KRightSquare]);
   ("PatternSliceSubslice", [KRef; KMut] ++ name, [KDoublePeriod]);
   ("PatternStruct", pathed, [KRightCurly]);
   ("PatternTuple", [KLeftParen], [KRightParen]);
   (* the comma behind [self] belongs to its extent, src/parser/mod.rs:789 *)
   ("SelfArgumentShorthand", [KAmpersand; KMut; KSelfIdent], [KSelfIdent; KComma]);
   ("Static", vis ++ [KStatic], [KSemicolon]);
   ("String", strings ++ byte_strings, strings ++ byte_strings);
   ("Struct", vis ++ [KStruct], [KRightCurly; KSemicolon]);
   ("StructDefinitionBodyBrace", [KLeftCurly], [KRightCurly]);
   ("StructDefinitionBodyTuple", [KLeftParen], [KSemicolon]);
   ("StructLiteral", [KLeftCurly], [KRightCurly]);
   ("Trait", vis ++ [KUnsafe; KAuto; KTrait], [KRightCurly]);
   ("TraitBoundLifetime", [KLifetime], [KLifetime]);
   ("TraitMemberConst", [KConst], [KSemicolon]);
   ("TraitMemberFunction", vis ++ qualifiers ++ [KFn], [KRightCurly; KSemicolon]);
   ("TraitMemberType", [KType], [KSemicolon]);
   ("Tuple", [KLeftParen], [KRightParen]);
   ("TypeAlias", vis ++ [KType], [KSemicolon]);
   ("TypeArray", [KLeftSquare], [KRightSquare]); ("TypeSlice", [KLeftSquare], [KRightSquare]);
   ("TypeTuple", [KLeftParen], [KRightParen]);
   ("Union", vis ++ [KUnion], [KRightCurly]);
   ("UnsafeBlock", [KUnsafe], [KRightCurly]);
   ("Use", vis ++ [KUse], [KSemicolon]);
   ("UsePath", [KCrate; KAsterisk; KLeftCurly] ++ name, [KAsterisk; KRightCurly] ++ name);
   ("UseTailGlob", [KAsterisk], [KAsterisk]); ("UseTailIdent", name, name); ("UseTailMulti", [KLeftCurly], [KRightCurly]);
   ("VisibilityPublic", [KPub], [KPub; KRightParen]);
   ("While", [KLifetime; KWhile], [KRightCurly]); ("WhileLet", [KLifetime; KWhile], [KRightCurly])]
  ++ [("PatternNumber", [MK KMinus; MNumber], Some [MNumber])]
  ++ map (fun '(k, a) => (k, words a, None))
  [("AssociatedType", name); ("AssociatedTypeValueBound", [KColon]); ("AssociatedTypeValueEqual", [KEquals]);
   ("Attributed<EnumVariant>", outer ++ name); ("EnumVariant", name);
   ("Attributed<GenericDeclarationConst>", outer ++ [KConst]); ("GenericDeclarationConst", [KConst]);
   ("Attributed<GenericDeclarationLifetime>", outer ++ [KLifetime]); ("GenericDeclarationLifetime", [KLifetime]);
   ("Attributed<GenericDeclarationType>", outer ++ name); ("GenericDeclarationType", name);
   ("Attributed<StructDefinitionFieldNamed>", outer ++ vis ++ name); ("StructDefinitionFieldNamed", vis ++ name);
   ("Break", [KBreak]); ("Closure", [KAsync; KMove; KPipe]); ("Disambiguation", [KLeftAngle]);
   ("FunctionHeader", vis ++ qualifiers ++ [KFn]); ("TraitImplFunctionHeader", vis ++ qualifiers ++ [KFn]);
   ("GenericDeclarations", [KLeftAngle]); ("Let", [KLet]); ("Path", KDoubleColon :: name);
   ("PatternBox", [KBox]); ("PatternReference", [KAmpersand]);
   ("PatternIdent", [KRef; KMut] ++ pathed);
   ("PatternStructFieldLong", name);
   ("Return", [KReturn]); ("SelfArgumentLonghand", [KMut; KSelfIdent]);
   ("TraitBoundNormal", pathed ++ [KFor]); ("TraitBoundRelaxed", [KQuestionMark]); ("Turbofish", [KDoubleColon]);
   ("TypeDisambiguation", [KLeftAngle]); ("TypeDynTrait", [KDyn]);
   ("TypeFunction", qualifiers ++ [KFn]); ("TypeGenericsAngle", [KLeftAngle]); ("TypeGenericsFunction", [KLeftParen]);
   ("TypeHigherRankedTraitBounds", [KFor]); ("TypeImplTrait", [KImpl]); ("TypeNamed", pathed);
   ("TypeNamedComponent", KCrate :: name); ("TypePointer", [KAsterisk]); ("TypeReference", [KAmpersand]);
   ("TypeReferenceKind", [KAmpersand]); ("WhereLifetime", [KLifetime])].

(** Nodes whose extent may be empty. *)
Definition may_be_empty : list string := ["FunctionQualifiers"].

(** * What the tables demand of a value *)

Definition marks (W : matcher -> extent -> Prop) (ms : list matcher) (v : val) : Prop :=
  match v with
  | VNone => True
  | VExt x | VSome (VExt x) => one_of W ms x
  | _ => False
  end.

Definition starts_with (W : matcher -> extent -> Prop) (ms : list matcher) (x : extent) : Prop :=
  exists y, one_of W ms y /\ fst y = fst x /\ snd y <= snd x.
Definition ends_with (W : matcher -> extent -> Prop) (ms : list matcher) (x : extent) : Prop :=
  exists y, one_of W ms y /\ snd y = snd x /\ fst x <= fst y.

(** A number literal has the base and the parts of a number token. *)
Definition base_of (r : radix) : string :=
  match r with RBinary => "Binary" | RDecimal => "Decimal" | RHexadecimal => "Hexadecimal" | ROctal => "Octal" end.
Definition opt_extent (o : option extent) : val := match o with Some x => VSome (VExt x) | None => VNone end.
Definition is_number (n : number) (v : val) : Prop :=
  get_field "extent" v = Some (VExt (n_extent n)) /\ get_field "is_negative" v = Some VNone /\
  exists w, get_field "value" v = Some (VVar "NumberValue" (base_of (n_radix n)) w) /\
    get_field "extent" w = Some (VExt (n_extent n)) /\ get_field "decimal" w = Some (VExt (n_integral n)) /\
    get_field "fraction" w = Some (opt_extent (n_fractional n)) /\ get_field "exponent" w = Some (opt_extent (n_exponent n)) /\
    get_field "suffix" w = Some (opt_extent (n_type_suffix n)).

Definition node_marks (W : matcher -> extent -> Prop) (N : number -> Prop) (k : string) (fs : list val) : Prop :=
  (forall f ms v, In (k, f, ms) markers -> get_field f (VNode k fs) = Some v -> marks W ms v) /\
  (forall a b x, In (k, a, b) first_last -> get_field "extent" (VNode k fs) = Some (VExt x) ->
     (In k may_be_empty /\ fst x = snd x) \/
     (starts_with W a x /\ forall ms, b = Some ms -> ends_with W ms x)) /\
  (k = "Number" -> exists n, N n /\ is_number n (VNode k fs)).

Definition variant_marks (W : matcher -> extent -> Prop) (e t : string) (v : val) : Prop :=
  forall ms, In (e, t, ms) payloads -> marks W ms v.

(** * Operators *)

(** The operator of each node for an operation: the tokens for it, and the fields
    with the operands before and behind it.  For [Binary] and [Unary] these depend
    on the field [op]. *)
Definition operators : list (string * option string * string * string * list matcher) :=
  map (fun '(o, k) => ("Binary", Some o, "lhs", "rhs", words [k]))
  [("Add", KPlus); ("AddAssign", KPlusEquals); ("Assign", KEquals); ("BitwiseAnd", KAmpersand);
   ("BitwiseAndAssign", KAmpersandEquals); ("BitwiseOr", KPipe); ("BitwiseOrAssign", KPipeEquals);
   ("BitwiseXor", KCaret); ("BitwiseXorAssign", KCaretEquals); ("BooleanAnd", KDoubleAmpersand);
   ("BooleanOr", KDoublePipe); ("Div", KSlash); ("DivAssign", KDivideEquals); ("Equal", KDoubleEquals);
   ("GreaterThan", KRightAngle); ("GreaterThanOrEqual", KGreaterThanOrEquals); ("LessThan", KLeftAngle);
   ("LessThanOrEqual", KLessThanOrEquals); ("Mod", KPercent); ("ModAssign", KPercentEquals); ("Mul", KAsterisk);
   ("MulAssign", KTimesEquals); ("NotEqual", KNotEqual); ("ShiftLeft", KDoubleLeftAngle);
   ("ShiftLeftAssign", KShiftLeftEquals); ("ShiftRight", KDoubleRightAngle); ("ShiftRightAssign", KShiftRightEquals);
   ("Sub", KMinus); ("SubAssign", KMinusEquals)]
  ++ map (fun '(o, k) => ("Unary", Some o, "", "value", words [k])) [("Negate", KMinus); ("Not", KBang)]
  ++ map (fun '(n, l, r, ks) => (n, None, l, r, words ks))
  [("Dereference", "", "target", [KAsterisk]); ("Reference", "", "target", [KAmpersand]); ("ExpressionBox", "", "target", [KBox]);
   ("Range", "lhs", "rhs", [KDoublePeriod]); ("RangeInclusive", "lhs", "rhs", [KTriplePeriod; KDoublePeriodEquals]);
   ("FieldAccess", "target", "field", [KPeriod]); ("Call", "target", "args", [KLeftParen]);
   ("Slice", "target", "index", [KLeftSquare]); ("AsType", "target", "typ", [KAs]);
   ("Ascription", "target", "typ", [KColon]); ("TryOperator", "target", "", [KQuestionMark])].

(** The tokens that close an operation. *)
Definition operator_ends : list (string * list matcher) :=
  [("Call", words [KRightParen]); ("Slice", words [KRightSquare]); ("TryOperator", words [KQuestionMark])].

Definition side (f : string) (v : val) : list extent := match get_field f v with Some w => extents w | None => [] end.

Definition has_operator (o : option string) (v : val) : Prop :=
  match o with None => True | Some t => exists e w, get_field "op" v = Some (VVar e t w) end.

Definition operator_marks (W : matcher -> extent -> Prop) (k : string) (fs : list val) : Prop :=
  (forall o l r ms x, In (k, o, l, r, ms) operators -> has_operator o (VNode k fs) -> get_field "extent" (VNode k fs) = Some (VExt x) ->
     exists y, one_of W ms y /\ fst x <= fst y /\ snd y <= snd x /\
       Forall (fun z => snd z <= fst y) (side l (VNode k fs)) /\ Forall (fun z => snd y <= fst z) (side r (VNode k fs))) /\
  (forall ms x, In (k, ms) operator_ends -> get_field "extent" (VNode k fs) = Some (VExt x) -> ends_with W ms x).

(** All of this everywhere in a value. *)
Fixpoint marked (W : matcher -> extent -> Prop) (N : number -> Prop) (v : val) : Prop :=
  match v with
  | VNum n => N n
  | VSome v => marked W N v
  | VVar e t v => variant_marks W e t v /\ marked W N v
  | VPair a b => marked W N a /\ marked W N b
  | VList l => fold_right (fun x P => marked W N x /\ P) True l
  | VNode k fs => fold_right (fun x P => marked W N x /\ P) True fs /\ node_marks W N k fs /\ operator_marks W k fs
  | _ => True
  end.
