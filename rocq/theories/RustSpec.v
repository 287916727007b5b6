(** Specification for C35, C36, C38, C39, C43, C44 and C46: the part of the Rust grammar
    for which the AST is known, as rules that pair a spelling with the outline of
    the AST it stands for.  Nothing here refers to the model of the parser. *)

From Coq Require Import String List Bool.
From Verif Require Import Base Token Schema Value OutlineSpec UseSpec.
Import ListNotations.
Local Open Scope string_scope.
Local Open Scope list_scope.

(** * Vocabulary *)

(** Optional symbols, and the marker they leave in the AST. *)
Definition flag (b : bool) (k : tkind) : list piece := if b then [Sym k] else [].
Definition mark (b : bool) : val := if b then VSome hole else VNone.

(** Something parsed: its spelling and its AST. *)
Definition text : Type := (list piece * val)%type.
Definition spelled (l : list text) : list (list piece) := map fst l.
Definition asts (l : list text) : list val := map snd l.

(** The kind of the first token. *)
Definition head_kind (ps : list piece) : option tkind :=
  match ps with (Sym k | Word k _ | Raw (Tk k _)) :: _ => Some k | _ => None end.
Definition starts_with (k : tkind) (ps : list piece) : bool :=
  match head_kind ps with Some k' => tkind_eqb k k' | None => false end.

(** The first element has no attributes. *)
Definition plain_head (ts : list text) : bool :=
  match ts with
  | [] => true
  | (ps, _) :: _ => negb (existsb (fun k => starts_with k ps) [KHash; KDocCommentOuterLine; KDocCommentOuterBlock])
  end.

Definition string_kind (k : tkind) : bool := existsb (tkind_eqb k) [KString; KStringRaw].

(** A clause that, left out, gives an empty list. *)
Definition or_nil (v : val) : val := match v with VSome v => v | _ => VList [] end.

(** Tokens in which [o] and [c] are balanced. *)
Definition token_is (k : tkind) (t : token) : bool :=
  match t with Tk k' _ => tkind_eqb k k' | TkNumber _ => false end.
Inductive balanced (o c : tkind) : list token -> Prop :=
| BL_nil : balanced o c []
| BL_one t ts : token_is o t = false -> token_is c t = false -> token_is KEndOfFile t = false ->
    balanced o c ts -> balanced o c (t :: ts)
| BL_nest t u ts us : token_is o t = true -> token_is c u = true -> balanced o c ts -> balanced o c us ->
    balanced o c (t :: ts ++ u :: us).

(** The three delimiters of a macro's arguments. *)
Definition delimiters : list (string * (tkind * tkind)) :=
  [("Paren", (KLeftParen, KRightParen)); ("Square", (KLeftSquare, KRightSquare)); ("Curly", (KLeftCurly, KRightCurly))].

(** A number. *)
Definition radix_word (r : radix) : string :=
  match r with RBinary => "Binary" | RDecimal => "Decimal" | RHexadecimal => "Hexadecimal" | ROctal => "Octal" end.
Definition number_ast (n : number) : val :=
  node "Number"
    [VNone;
     VVar "NumberValue" (radix_word (n_radix n))
       (VNode ("Number" ++ radix_word (n_radix n))
         [VExt (n_extent n); VExt (n_integral n); vopt_of VExt (n_fractional n); vopt_of VExt (n_exponent n);
          vopt_of VExt (n_type_suffix n)])].

(** Where the names of the AST differ for the same thing. *)
Definition item (variant : string) (v : val) : val := VVar "Item" variant v.

(** * Grammar *)

(** Where an expression stands: a struct literal is not allowed before a block, and
    a block is not allowed as the end of a range before a block. *)
Inductive place : Type := Anywhere | BeforeBlock | RangeBeforeBlock.

(** What a value is assigned to. *)
Inductive role : Type := OfVariant | OfConst | OfLet (brace : bool).
Definition braced (r : role) : bool := match r with OfLet b => b | _ => false end.

(** How an expression starts, which matters for statements: [Blocky] ends a
    statement by itself; [Called] is a macro call that is an item if a semicolon
    follows; [Barred] is not taken for an expression where a statement starts. *)
Inductive front : Type := Free | Blocky | Called | Barred.

(** How an expression ends, which decides what may follow: it is complete, or ends
    with a field or a path that [::] would continue, or with a type; or whatever
    operator follows would be part of what it ends with.  The flag of [AtPath] and
    [AtRest] says that a brace may follow. *)
Inductive back : Type := AtEnd | AtField | AtPath (brace : bool) | AtType (o : bool) | AtRest (brace : bool).

(** What was parsed last in a list of statements or match arms. *)
Inductive after : Type := Start | AfterSep | AfterItem | AfterBlock.

(** What is spelled.  The flag of some type categories says that the spelling ends
    with a complete type, so that a [+] behind it would belong to that type. *)
Inductive cat : Type :=
| Name
| Member
| Lifetime
| Str
| Attribute
| With (t : string) (c : cat)
| Path
| PathComponent
| PathedIdent
| MacroCall
| Ty
| TyKind (o : bool)
| TyNamed (o : bool)
| TyComponent (o : bool)
| TyGenerics (o : bool)
| TyMember
| TyAdditional (o : bool)
| TyFunction (o : bool)
| TyArg
| TyVariadic
| TyHrtb (o : bool)
| RefKind
| AsNamed
| Hrtb
| Qualifiers
| ReturnTy
| Bounds
| BoundsDecl
| TyDefault
| LifeBounds
| Bound (o : bool)
| BoundTy (o : bool)
| GenericLifetime
| GenericType
| GenericConst
| Generics
| WhereItem
| Wheres
| Vis (paren : bool)
| FieldNamed
| FieldUnnamed
| BraceFields
| TupleFields
| UseTree
| MacroItem
| InnerAttribute
| Variant
| VariantBody
| Assigned (r : role)
| Rename
| Item
| FnHeader
| TraitFnHeader
| TraitFnBody
| Args
| TraitArgs
| ExternArgs
| SelfArg (comma : bool)
| Arg
| TraitArg
| ExternArg
| ImplSubject
| ImplTarget
| TraitMember
| ImplMember
| ExternMember
| CharLit
| ByteLit
| ByteStr
| NumLit
| Pattern
| PatternKind
| PatternTuple
| PatternIdent
| PatternNumber
| TupleMember
| SliceMember
| FieldPattern
| RangeEnd
| RangeOp
| Block
| Stmts (a : after)
| Expr (brace : bool)
| Chain (h : front) (t : back)
| Operand (range : bool) (t : back)
| PrefixOp
| Atom (h : front) (t : back)
| If
| Label
| Arms (a : after)
| Arm (brace : bool)
| Guard
| LetTy
| ClosureArg
| ClosureArgTy
| FieldInit
| Splat.

(** What may have attributes, and the type of its AST. *)
Definition attributable (c : cat) : option string :=
  match c with
  | GenericLifetime => Some "GenericDeclarationLifetime"
  | GenericType => Some "GenericDeclarationType"
  | GenericConst => Some "GenericDeclarationConst"
  | FieldNamed => Some "StructDefinitionFieldNamed"
  | FieldUnnamed => Some "StructDefinitionFieldUnnamed"
  | Item => Some "Item"
  | Variant => Some "EnumVariant"
  | TraitMember => Some "TraitMember"
  | ImplMember => Some "ImplMember"
  | ExternMember => Some "ExternBlockMember"
  | PrefixOp => Some "OperatorPrefix"
  | Atom _ _ => Some "Expression"
  | _ => None
  end.

(** ** Operators *)

Definition expression (variant : string) (v : val) : val := VVar "Expression" variant v.
Definition expr (k : string) (fs : list val) : val := expression k (node k fs).
Definition bare (e : val) : val := node "Attributed<Expression>" [VList []; e].

Definition binary_operators : list (tkind * string) :=
  [(KPlus, "Add"); (KMinus, "Sub"); (KAsterisk, "Mul"); (KSlash, "Div"); (KPercent, "Mod");
   (KAmpersand, "BitwiseAnd"); (KPipe, "BitwiseOr"); (KCaret, "BitwiseXor");
   (KDoubleLeftAngle, "ShiftLeft"); (KDoubleRightAngle, "ShiftRight");
   (KDoubleAmpersand, "BooleanAnd"); (KDoublePipe, "BooleanOr");
   (KDoubleEquals, "Equal"); (KNotEqual, "NotEqual"); (KLeftAngle, "LessThan"); (KRightAngle, "GreaterThan");
   (KLessThanOrEquals, "LessThanOrEqual"); (KGreaterThanOrEquals, "GreaterThanOrEqual");
   (KEquals, "Assign"); (KPlusEquals, "AddAssign"); (KMinusEquals, "SubAssign"); (KTimesEquals, "MulAssign");
   (KDivideEquals, "DivAssign"); (KPercentEquals, "ModAssign"); (KAmpersandEquals, "BitwiseAndAssign");
   (KPipeEquals, "BitwiseOrAssign"); (KCaretEquals, "BitwiseXorAssign");
   (KShiftLeftEquals, "ShiftLeftAssign"); (KShiftRightEquals, "ShiftRightAssign")].

(** [infix k a b e]: [a k b] is [e]. *)
Inductive infix : tkind -> val -> val -> val -> Prop :=
| InfixBinary k op a b : In (k, op) binary_operators -> infix k a b (expr "Binary" [VVar "BinaryOp" op VUnit; a; b])
| InfixRange a b : infix KDoublePeriod a b (expr "Range" [VSome a; VSome b])
| InfixThrough k op a b : In (k, op) [(KTriplePeriod, "Legacy"); (KDoublePeriodEquals, "Recommended")] ->
    infix k a b (expr "RangeInclusive" [VSome a; VVar "RangeInclusiveOperator" op hole; VSome b]).

Definition range_kind (k : tkind) : bool := existsb (tkind_eqb k) [KDoublePeriod; KTriplePeriod; KDoublePeriodEquals].

(** [prefix o a e]: the prefix operator [o] applied to [a] is [e]. *)
Inductive prefix : val -> val -> val -> Prop :=
| PrefixDeref p a : prefix (VVar "OperatorPrefix" "Dereference" p) a (expr "Dereference" [a])
| PrefixRef m a : prefix (VVar "OperatorPrefix" "Reference" m) a (expr "Reference" [m; a])
| PrefixBox p a : prefix (VVar "OperatorPrefix" "Box" p) a (expression "Box" (node "ExpressionBox" [a]))
| PrefixUnary op p a : In op ["Negate"; "Not"] ->
    prefix (VVar "OperatorPrefix" op p) a (expr "Unary" [VVar "UnaryOp" op VUnit; a])
| PrefixRange p a : prefix (VVar "OperatorPrefix" "RangeExclusive" p) a (expr "Range" [VNone; VSome a])
| PrefixThrough o a : prefix (VVar "OperatorPrefix" "RangeInclusive" o) a (expr "RangeInclusive" [VNone; o; VSome a]).

(** An operator may stand behind an expression that ends this way. *)
Definition open_for (t : back) (k : tkind) : bool :=
  match t with
  | AtEnd | AtField | AtPath _ => true
  | AtType o => negb (existsb (tkind_eqb k) ([KLeftAngle; KDoubleLeftAngle; KLeftParen] ++ (if o then [KPlus] else [])))
  | AtRest _ => false
  end.
Definition before_brace (t : back) : bool :=
  match t with AtPath b | AtRest b => b | _ => true end.

(** The start of an expression after an infix operator, a call, an index or a cast
    was applied to it; and after a field access or [?]. *)
Definition operated (h : front) : front := match h with Called => Free | Blocky => Barred | h => h end.
Definition accessed (h : front) : front := match h with Barred => Barred | _ => Free end.

(** [crate] and [default] are taken for the start of another item unless [::] follows. *)
Definition macro_start (ps : list piece) : bool :=
  match ps with
  | _ :: Sym KDoubleColon :: _ => true
  | _ => negb (existsb (fun k => starts_with k ps) [KCrate; KDefault])
  end.

(** What starts with a path that might be the start of an item: a single word that
    is also the first word of items. *)
Definition path_front (h : front) (ps : list piece) : front :=
  match ps with
  | [_] => if existsb (fun k => starts_with k ps) [KCrate; KDefault; KUnion] then Barred else h
  | _ => h
  end.

Definition restricted (l : place) : bool := match l with Anywhere => false | _ => true end.

(** The place of an operand. *)
Definition behind (range : bool) (l : place) : place :=
  match l with Anywhere => Anywhere | l => if range then RangeBeforeBlock else l end.

Inductive syn (l : place) : cat -> list piece -> val -> Prop :=

(** ** Words *)
| NameOf w : ident_kind (fst w) = true -> syn l Name [spell_word w] (ident w)
| MemberOf w : member_kind (fst w) = true -> syn l Member [spell_word w] (ident w)
| LifetimeOf x : syn l Lifetime [Word KLifetime x] (VNode "Lifetime" [hole; VNode "Ident" [VExt x]])
| StrOf w : string_kind (fst w) = true -> syn l Str [spell_word w] (VNode "String" [VExt (snd w); VExt (snd w)])

(** ** Attributes *)
| AttrLine x : syn l Attribute [Word KDocCommentOuterLine x] (VVar "Attribute" "DocCommentLine" hole)
| AttrBlock x : syn l Attribute [Word KDocCommentOuterBlock x] (VVar "Attribute" "DocCommentBlock" hole)
| AttrLiteral ts : balanced KLeftSquare KRightSquare ts ->
    syn l Attribute ([Sym KHash; Sym KLeftSquare] ++ map Raw ts ++ [Sym KRightSquare])
      (VVar "Attribute" "Literal" (node "AttributeLiteral" [hole]))
| WithAttributes t c attrs ps v : attributable c = Some t -> syns l Attribute attrs -> syn l c ps v ->
    syn l (With t c) (concat (spelled attrs) ++ ps) (node ("Attributed<" ++ t ++ ">") [VList (asts attrs); v])

(** ** Paths *)
| PathOf g ws : ws <> [] -> syns l Name ws ->
    syn l Path (flag g KDoubleColon ++ separated KDoubleColon (spelled ws) false) (node "Path" [VList (asts ws)])
| ComponentPlain ms m : syn l Member ms m -> syn l PathComponent ms (node "PathComponent" [m; VNone])
| ComponentTurbofish ms m xs tys c : syn l Member ms m -> syns l Lifetime xs -> syns l Ty tys ->
    syn l PathComponent
      (ms ++ [Sym KDoubleColon; Sym KLeftAngle] ++ commas (spelled xs ++ spelled tys) c ++ [Sym KRightAngle])
      (node "PathComponent" [m; VSome (node "Turbofish" [VList (asts xs); VList (asts tys)])])
| Pathed g cs : cs <> [] -> syns l PathComponent cs ->
    syn l PathedIdent (flag g KDoubleColon ++ separated KDoubleColon (spelled cs) false)
      (node "PathedIdent" [VList (asts cs)])

(** ** Types *)
| TyPlain o ps v : syn l (TyKind o) ps v -> syn l Ty ps (node "Type" [v; VList []])
| TyMore ps v adds o qs w : syn l (TyKind false) ps v ->
    syns l (TyAdditional false) adds -> syn l (TyAdditional o) qs w ->
    syn l Ty (ps ++ Sym KPlus :: separated KPlus (spelled adds ++ [qs]) false) (node "Type" [v; VList (asts adds ++ [w])])
| TyArray ps v qs w : syn l Ty ps v -> syn l (Expr false) qs w ->
    syn l (TyKind false) (Sym KLeftSquare :: ps ++ Sym KSemicolon :: qs ++ [Sym KRightSquare])
      (VVar "TypeKind" "Array" (node "TypeArray" [v; w]))
| TySlice ps v : syn l Ty ps v ->
    syn l (TyKind false) (Sym KLeftSquare :: ps ++ [Sym KRightSquare]) (VVar "TypeKind" "Slice" (node "TypeSlice" [v]))
| TyTuple tys c : syns l Ty tys ->
    syn l (TyKind false) (Sym KLeftParen :: commas (spelled tys) c ++ [Sym KRightParen])
      (VVar "TypeKind" "Tuple" (node "TypeTuple" [VList (asts tys)]))
| TyNever : syn l (TyKind false) [Sym KBang] (VVar "TypeKind" "Uninhabited" hole)
| TyPointer (m : bool) ps v : syn l Ty ps v ->
    syn l (TyKind true) ([Sym KAsterisk; Sym (if m then KMut else KConst)] ++ ps)
      (VVar "TypeKind" "Pointer" (node "TypePointer" [VVar "TypePointerKind" (if m then "Mutable" else "Const") VUnit; v]))
| TyReference ks kv ps v : syn l RefKind ks kv -> syn l Ty ps v ->
    syn l (TyKind true) (ks ++ ps) (VVar "TypeKind" "Reference" (node "TypeReference" [kv; v]))
| TyDyn o ps v : syn l (TyNamed o) ps v ->
    syn l (TyKind o) (Sym KDyn :: ps) (VVar "TypeKind" "DynTrait" (node "TypeDynTrait" [v]))
| TyImpl o ps v : syn l (TyNamed o) ps v ->
    syn l (TyKind o) (Sym KImpl :: ps) (VVar "TypeKind" "ImplTrait" (node "TypeImplTrait" [v]))
| TyName o ps v : syn l (TyNamed o) ps v -> starts_with KDefault ps = false -> starts_with KDyn ps = false ->
    syn l (TyKind o) ps (VVar "TypeKind" "Named" v)
| TyFn o ps v : syn l (TyFunction o) ps v -> syn l (TyKind o) ps (VVar "TypeKind" "Function" v)
| TyFor o ps v : syn l (TyHrtb o) ps v -> syn l (TyKind o) ps (VVar "TypeKind" "HigherRankedTraitBounds" v)
| TyDisambiguation ps v ts tv cs : syn l Ty ps v -> syno l AsNamed ts tv -> syns l (TyComponent false) cs ->
    syn l (TyKind false)
      (Sym KLeftAngle :: ps ++ ts ++ [Sym KRightAngle] ++
       (match cs with [] => [] | _ => Sym KDoubleColon :: separated KDoubleColon (spelled cs) false end))
      (VVar "TypeKind" "Disambiguation" (node "TypeDisambiguation" [v; tv; VList (asts cs)]))
| AsNamedOf o ps v : syn l (TyNamed o) ps v -> syn l AsNamed (Sym KAs :: ps) v
| TyAddNamed o ps v : syn l (TyNamed o) ps v -> syn l (TyAdditional o) ps (VVar "TypeAdditional" "Named" v)
| TyAddLife ps v : syn l Lifetime ps v -> syn l (TyAdditional false) ps (VVar "TypeAdditional" "Lifetime" v)
| RefKindOf xs xv m : syno l Lifetime xs xv ->
    syn l RefKind (Sym KAmpersand :: xs ++ flag m KMut) (node "TypeReferenceKind" [xv; mark m])
| NamedOf g cs o ps v : syns l (TyComponent false) cs -> syn l (TyComponent o) ps v ->
    syn l (TyNamed o) (flag g KDoubleColon ++ separated KDoubleColon (spelled cs ++ [ps]) false)
      (node "TypeNamed" [VList (asts cs ++ [v])])
| TyComponentPlain ms m : syn l Member ms m -> syn l (TyComponent false) ms (node "TypeNamedComponent" [m; VNone])
| TyComponentGeneric ms m o ps v : syn l Member ms m -> syn l (TyGenerics o) ps v ->
    syn l (TyComponent o) (ms ++ ps) (node "TypeNamedComponent" [m; VSome v])
| GenericsFn tys c : syns l Ty tys ->
    syn l (TyGenerics false) (Sym KLeftParen :: commas (spelled tys) c ++ [Sym KRightParen])
      (VVar "TypeGenerics" "Function" (node "TypeGenericsFunction" [VList (asts tys); VNone]))
| GenericsFnReturn tys c ps v : syns l Ty tys -> syn l ReturnTy ps v ->
    syn l (TyGenerics true) (Sym KLeftParen :: commas (spelled tys) c ++ Sym KRightParen :: ps)
      (VVar "TypeGenerics" "Function" (node "TypeGenericsFunction" [VList (asts tys); VSome v]))
| GenericsAngle ms c : syns l TyMember ms ->
    syn l (TyGenerics false) (Sym KLeftAngle :: commas (spelled ms) c ++ [Sym KRightAngle])
      (VVar "TypeGenerics" "Angle" (node "TypeGenericsAngle" [VList (asts ms)]))
| MemberEqual ns n ps v : syn l Name ns n -> syn l Ty ps v ->
    syn l TyMember (ns ++ Sym KEquals :: ps)
      (VVar "TypeGenericsAngleMember" "AssociatedType"
        (node "AssociatedType" [n; VVar "AssociatedTypeValue" "Equal" (node "AssociatedTypeValueEqual" [v])]))
| MemberBound ns n ps v : syn l Name ns n -> syn l Bounds ps v ->
    syn l TyMember (ns ++ Sym KColon :: ps)
      (VVar "TypeGenericsAngleMember" "AssociatedType"
        (node "AssociatedType" [n; VVar "AssociatedTypeValue" "Bound" (node "AssociatedTypeValueBound" [v])]))
| MemberLife ps v : syn l Lifetime ps v -> syn l TyMember ps (VVar "TypeGenericsAngleMember" "Lifetime" v)
| MemberType ps v : syn l Ty ps v -> syn l TyMember ps (VVar "TypeGenericsAngleMember" "Type" v)
| FunctionOf qs q args vas c : syn l Qualifiers qs q -> syns l TyArg args -> syns l TyVariadic vas ->
    syn l (TyFunction false)
      (qs ++ [Sym KFn; Sym KLeftParen] ++ commas (spelled args ++ spelled vas) c ++ [Sym KRightParen])
      (node "TypeFunction" [q; VList (asts args ++ asts vas); VNone])
| FunctionReturn qs q args vas c ps v : syn l Qualifiers qs q -> syns l TyArg args -> syns l TyVariadic vas -> syn l ReturnTy ps v ->
    syn l (TyFunction true)
      (qs ++ [Sym KFn; Sym KLeftParen] ++ commas (spelled args ++ spelled vas) c ++ Sym KRightParen :: ps)
      (node "TypeFunction" [q; VList (asts args ++ asts vas); VSome v])
| VariadicOf : syn l TyVariadic [Sym KTriplePeriod] (VVar "TypeFunctionArgument" "Variadic" hole)
| QualifiersOf d c u a :
    syn l Qualifiers (flag d KDefault ++ flag c KConst ++ flag u KUnsafe ++ flag a KAsync)
      (node "FunctionQualifiers" [mark d; mark c; mark u; mark a; VNone; VNone])
| QualifiersExtern d c u a ss sv : syno l Str ss sv ->
    syn l Qualifiers (flag d KDefault ++ flag c KConst ++ flag u KUnsafe ++ flag a KAsync ++ Sym KExtern :: ss)
      (node "FunctionQualifiers" [mark d; mark c; mark u; mark a; VSome hole; sv])
| ArgType ps v : syn l Ty ps v ->
    syn l TyArg ps (VVar "TypeFunctionArgument" "Named" (node "TypeFunctionArgumentNamed" [VNone; v]))
| ArgNamed ns n ps v : syn l Name ns n -> syn l Ty ps v ->
    syn l TyArg (ns ++ Sym KColon :: ps)
      (VVar "TypeFunctionArgument" "Named" (node "TypeFunctionArgumentNamed" [VSome n; v]))
| Returns ps v : syn l Ty ps v -> syn l ReturnTy (Sym KThinArrow :: ps) v
| ForLives xs c : syns l Lifetime xs ->
    syn l Hrtb ([Sym KFor; Sym KLeftAngle] ++ commas (spelled xs) c ++ [Sym KRightAngle]) (VList (asts xs))
| HrtbNamed hs hv o ps v : syn l Hrtb hs hv -> syn l (TyNamed o) ps v ->
    syn l (TyHrtb o) (hs ++ ps)
      (node "TypeHigherRankedTraitBounds" [hv; VVar "TypeHigherRankedTraitBoundsChild" "Named" v])
| HrtbFunction hs hv o ps v : syn l Hrtb hs hv -> syn l (TyFunction o) ps v -> starts_with KDefault ps = false ->
    syn l (TyHrtb o) (hs ++ ps)
      (node "TypeHigherRankedTraitBounds" [hv; VVar "TypeHigherRankedTraitBoundsChild" "Function" v])
| HrtbReference hs hv ks kv ps v : syn l Hrtb hs hv -> syn l RefKind ks kv -> syn l Ty ps v ->
    syn l (TyHrtb true) (hs ++ ks ++ ps)
      (node "TypeHigherRankedTraitBounds"
        [hv; VVar "TypeHigherRankedTraitBoundsChild" "Reference" (node "TypeReference" [kv; v])])

(** ** Bounds and generics *)
| NoBounds : syn l Bounds [] (node "TraitBounds" [VList []])
| SomeBounds bs o ps v c : syns l (Bound false) bs -> syn l (Bound o) ps v -> o && c = false ->
    syn l Bounds (separated KPlus (spelled bs ++ [ps]) c) (node "TraitBounds" [VList (asts bs ++ [v])])
| BoundLife ps v : syn l Lifetime ps v ->
    syn l (Bound false) ps (VVar "TraitBound" "Lifetime" (node "TraitBoundLifetime" [v]))
| BoundNormal o ps v : syn l (BoundTy o) ps v ->
    syn l (Bound o) ps (VVar "TraitBound" "Normal" (node "TraitBoundNormal" [v]))
| BoundRelaxed o ps v : syn l (BoundTy o) ps v ->
    syn l (Bound o) (Sym KQuestionMark :: ps) (VVar "TraitBound" "Relaxed" (node "TraitBoundRelaxed" [v]))
| BoundNamed o ps v : syn l (TyNamed o) ps v -> syn l (BoundTy o) ps (VVar "TraitBoundType" "Named" v)
| BoundFor o ps v : syn l (TyHrtb o) ps v -> syn l (BoundTy o) ps (VVar "TraitBoundType" "HigherRankedTraitBounds" v)
| BoundsAfterColon ps v : syn l Bounds ps v -> syn l BoundsDecl (Sym KColon :: ps) v
| DefaultOf ps v : syn l Ty ps v -> syn l TyDefault (Sym KEquals :: ps) v
| LifetimeParam xs x bs bv : syn l Lifetime xs x -> syno l LifeBounds bs bv ->
    syn l GenericLifetime (xs ++ bs) (node "GenericDeclarationLifetime" [x; or_nil bv])
| LifeBoundsOf ys c : syns l Lifetime ys ->
    syn l LifeBounds (Sym KColon :: separated KPlus (spelled ys) c) (VList (asts ys))
| TypeParam ns n bs bv ds dv : syn l Name ns n -> syno l BoundsDecl bs bv -> syno l TyDefault ds dv ->
    syn l GenericType (ns ++ bs ++ ds) (node "GenericDeclarationType" [n; bv; dv])
| ConstParam ns n ps v : syn l Name ns n -> syn l Ty ps v ->
    syn l GenericConst (Sym KConst :: ns ++ Sym KColon :: ps) (node "GenericDeclarationConst" [n; v])
| GenericsOf xs tys cs c : syns l (With "GenericDeclarationLifetime" GenericLifetime) xs ->
    syns l (With "GenericDeclarationType" GenericType) tys -> syns l (With "GenericDeclarationConst" GenericConst) cs ->
    plain_head tys = true -> plain_head cs = true ->
    syn l Generics (Sym KLeftAngle :: commas (spelled xs ++ spelled tys ++ spelled cs) c ++ [Sym KRightAngle])
      (node "GenericDeclarations" [VList (asts xs); VList (asts tys); VList (asts cs)])
| WhereLife xs x bs bv : syn l Lifetime xs x -> syn l LifeBounds bs bv ->
    syn l WhereItem (xs ++ bs) (node "Where" [VList []; VVar "WhereKind" "Lifetime" (node "WhereLifetime" [x; bv])])
| WhereTy hs hv ps v bs bv : syno l Hrtb hs hv -> syn l Ty ps v -> syn l BoundsDecl bs bv ->
    (hs = [] -> starts_with KFor ps = false) ->
    syn l WhereItem (hs ++ ps ++ bs)
      (node "Where" [or_nil hv; VVar "WhereKind" "Type" (node "WhereType" [v; bv])])
| WheresOf ws c : ws <> [] -> syns l WhereItem ws -> syn l Wheres (Sym KWhere :: commas (spelled ws) c) (VList (asts ws))

(** ** Items *)
| VisPub : syn l (Vis false) [Sym KPub] (VVar "Visibility" "Public" (node "VisibilityPublic" [VNone]))
| VisPubSelf : syn l (Vis true) [Sym KPub; Sym KLeftParen; Sym KSelfIdent; Sym KRightParen]
    (VVar "Visibility" "Public" (node "VisibilityPublic" [VSome (VVar "VisibilityPublicQualifier" "SelfIdent" VUnit)]))
| VisPubCrate : syn l (Vis true) [Sym KPub; Sym KLeftParen; Sym KCrate; Sym KRightParen]
    (VVar "Visibility" "Public" (node "VisibilityPublic" [VSome (VVar "VisibilityPublicQualifier" "Crate" VUnit)]))
| VisPubPath ps v : syn l Path ps v -> starts_with KSelfIdent ps = false ->
    syn l (Vis true) ([Sym KPub; Sym KLeftParen] ++ ps ++ [Sym KRightParen])
      (VVar "Visibility" "Public" (node "VisibilityPublic" [VSome (VVar "VisibilityPublicQualifier" "Path" v)]))
| VisCrate : syn l (Vis true) [Sym KCrate] (VVar "Visibility" "Crate" hole)
| VisEither ps v : syn l (Vis true) ps v -> syn l (Vis false) ps v
| NamedField vs vv ns n ps v : syno l (Vis false) vs vv -> syn l Name ns n -> syn l Ty ps v ->
    syn l FieldNamed (vs ++ ns ++ Sym KColon :: ps) (node "StructDefinitionFieldNamed" [vv; n; v])
| UnnamedField vs vv ps v : syno l (Vis true) vs vv -> syn l Ty ps v -> (vs = [] -> starts_with KCrate ps = false) ->
    syn l FieldUnnamed (vs ++ ps) (node "StructDefinitionFieldUnnamed" [vv; v])
| UnnamedPubField ps v : syn l Ty ps v -> starts_with KLeftParen ps = false ->
    syn l FieldUnnamed (Sym KPub :: ps)
      (node "StructDefinitionFieldUnnamed" [VSome (VVar "Visibility" "Public" (node "VisibilityPublic" [VNone])); v])
| BraceFieldsOf fs c : syns l (With "StructDefinitionFieldNamed" FieldNamed) fs ->
    syn l BraceFields (Sym KLeftCurly :: commas (spelled fs) c ++ [Sym KRightCurly])
      (node "StructDefinitionBodyBrace" [VList (asts fs)])
| TupleFieldsOf fs c : syns l (With "StructDefinitionFieldUnnamed" FieldUnnamed) fs ->
    syn l TupleFields (Sym KLeftParen :: commas (spelled fs) c ++ [Sym KRightParen]) (VList (asts fs))
| UseTreeOf t : use_ok t -> syn l UseTree (spell_use t) (ast_use t)
| RenameOf ns n : syn l Name ns n -> syn l Rename (Sym KAs :: ns) n
| AssignedOf r ps v : syn l (Expr (braced r)) ps v -> syn l (Assigned r) (Sym KEquals :: ps) v
| MacroItemOf ps v ns n d o c ts : syn l PathedIdent ps v -> syno l Name ns n -> In (d, (o, c)) delimiters -> balanced o c ts ->
    syn l MacroItem
      (ps ++ Sym KBang :: ns ++ Sym o :: map Raw ts ++ Sym c :: (if String.eqb d "Curly" then [] else [Sym KSemicolon]))
      (node "MacroCall" [v; n; VVar "MacroCallArgs" d hole])
| InnerLine x : syn l InnerAttribute [Word KDocCommentInnerLine x] (VVar "AttributeContaining" "DocCommentLine" hole)
| InnerBlock x : syn l InnerAttribute [Word KDocCommentInnerBlock x] (VVar "AttributeContaining" "DocCommentBlock" hole)
| InnerLiteral ts : balanced KLeftSquare KRightSquare ts ->
    syn l InnerAttribute ([Sym KHash; Sym KBang; Sym KLeftSquare] ++ map Raw ts ++ [Sym KRightSquare])
      (VVar "AttributeContaining" "Literal" (node "AttributeContainingLiteral" [hole]))
| InnerItem ps v : syn l InnerAttribute ps v ->
    syn l (With "Item" Item) ps (node "Attributed<Item>" [VList []; item "AttributeContaining" v])
| MacroItemItem ps v : syn l MacroItem ps v -> macro_start ps = true ->
    syn l Item ps (item "MacroCall" v)
| UseItem vs vv g ps v : syno l (Vis false) vs vv -> syn l UseTree ps v ->
    syn l Item (vs ++ Sym KUse :: flag g KDoubleColon ++ ps ++ [Sym KSemicolon]) (item "Use" (node "Use" [vv; v]))
| ExternCrateItem vs vv ns n rs r : syno l (Vis false) vs vv -> syn l Name ns n -> syno l Rename rs r ->
    syn l Item (vs ++ [Sym KExtern; Sym KCrate] ++ ns ++ rs ++ [Sym KSemicolon]) (item "ExternCrate" (node "Crate" [vv; n; r]))
| ConstItem vs vv ns n ps v es e : syno l (Vis false) vs vv -> syn l Name ns n -> syn l Ty ps v -> syn l (Expr false) es e ->
    syn l Item (vs ++ Sym KConst :: ns ++ Sym KColon :: ps ++ Sym KEquals :: es ++ [Sym KSemicolon]) (item "Const" (node "Const" [vv; n; v; e]))
| StaticItem vs vv m ns n ps v es e : syno l (Vis false) vs vv -> syn l Name ns n -> syn l Ty ps v -> syn l (Expr false) es e ->
    syn l Item (vs ++ Sym KStatic :: flag m KMut ++ ns ++ Sym KColon :: ps ++ Sym KEquals :: es ++ [Sym KSemicolon])
      (item "Static" (node "Static" [vv; mark m; n; v; e]))
| TypeAliasItem vs vv ns n gs gv ws wv ps v : syno l (Vis false) vs vv -> syn l Name ns n -> syno l Generics gs gv ->
    syno l Wheres ws wv -> syn l Ty ps v ->
    syn l Item (vs ++ Sym KType :: ns ++ gs ++ ws ++ Sym KEquals :: ps ++ [Sym KSemicolon])
      (item "TypeAlias" (node "TypeAlias" [vv; n; gv; or_nil wv; v]))
| ModuleItem vs vv ns n its : syno l (Vis false) vs vv -> syn l Name ns n -> syns l (With "Item" Item) its ->
    syn l Item (vs ++ Sym KMod :: ns ++ Sym KLeftCurly :: concat (spelled its) ++ [Sym KRightCurly])
      (item "Module" (node "Module" [vv; n; VSome (VList (asts its))]))
| ModuleFileItem vs vv ns n : syno l (Vis false) vs vv -> syn l Name ns n ->
    syn l Item (vs ++ Sym KMod :: ns ++ [Sym KSemicolon]) (item "Module" (node "Module" [vv; n; VNone]))
| StructBrace vs vv ns n gs gv ws wv fs fv : syno l (Vis false) vs vv -> syn l Name ns n -> syno l Generics gs gv ->
    syno l Wheres ws wv -> syn l BraceFields fs fv ->
    syn l Item (vs ++ Sym KStruct :: ns ++ gs ++ ws ++ fs)
      (item "Struct" (node "Struct" [vv; n; gv; or_nil wv; VVar "StructDefinitionBody" "Brace" fv]))
| StructTuple vs vv ns n gs gv ws wv fs fv : syno l (Vis false) vs vv -> syn l Name ns n -> syno l Generics gs gv ->
    syn l TupleFields fs fv -> syno l Wheres ws wv ->
    syn l Item (vs ++ Sym KStruct :: ns ++ gs ++ fs ++ ws ++ [Sym KSemicolon])
      (item "Struct" (node "Struct"
        [vv; n; gv; or_nil wv; VVar "StructDefinitionBody" "Tuple" (node "StructDefinitionBodyTuple" [fv])]))
| StructUnit vs vv ns n gs gv : syno l (Vis false) vs vv -> syn l Name ns n -> syno l Generics gs gv ->
    syn l Item (vs ++ Sym KStruct :: ns ++ gs ++ [Sym KSemicolon])
      (item "Struct" (node "Struct" [vv; n; gv; VList []; VVar "StructDefinitionBody" "Empty" hole]))
| UnionItem vs vv ns n gs gv ws wv fs c : syno l (Vis false) vs vv -> syn l Name ns n -> syno l Generics gs gv ->
    syno l Wheres ws wv -> syns l (With "StructDefinitionFieldNamed" FieldNamed) fs ->
    syn l Item (vs ++ Sym KUnion :: ns ++ gs ++ ws ++ Sym KLeftCurly :: commas (spelled fs) c ++ [Sym KRightCurly])
      (item "Union" (node "Union" [vv; n; gv; or_nil wv; VList (asts fs)]))
| EnumItem vs vv ns n gs gv ws wv xs c : syno l (Vis false) vs vv -> syn l Name ns n -> syno l Generics gs gv ->
    syno l Wheres ws wv -> syns l (With "EnumVariant" Variant) xs ->
    syn l Item (vs ++ Sym KEnum :: ns ++ gs ++ ws ++ Sym KLeftCurly :: commas (spelled xs) c ++ [Sym KRightCurly])
      (item "Enum" (node "Enum" [vv; n; gv; or_nil wv; VList (asts xs)]))
| VariantOf ns n bs b : syn l Name ns n -> syn l VariantBody bs b -> syn l Variant (ns ++ bs) (node "EnumVariant" [n; b])
| VariantTuple ps v : syn l TupleFields ps v -> syn l VariantBody ps (VVar "EnumVariantBody" "Tuple" v)
| VariantStruct ps v : syn l BraceFields ps v -> syn l VariantBody ps (VVar "EnumVariantBody" "Struct" v)
| VariantUnit ps v : syno l (Assigned OfVariant) ps v -> syn l VariantBody ps (VVar "EnumVariantBody" "Unit" v)
| FnItem hs h bs b : syn l FnHeader hs h -> syn l Block bs b -> syn l Item (hs ++ bs) (item "Function" (node "Function" [h; b]))
| TraitItem vs vv u a ns n gs gv ds d ws wv ms : syno l (Vis false) vs vv -> syn l Name ns n -> syno l Generics gs gv ->
    syno l BoundsDecl ds d -> syno l Wheres ws wv -> syns l (With "TraitMember" TraitMember) ms ->
    syn l Item
      (vs ++ flag u KUnsafe ++ flag a KAuto ++ Sym KTrait :: ns ++ gs ++ ds ++ ws ++
       Sym KLeftCurly :: concat (spelled ms) ++ [Sym KRightCurly])
      (item "Trait" (node "Trait" [vv; mark u; mark a; n; gv; d; or_nil wv; VList (asts ms)]))
| ImplItem u gs gv ks k ws wv ms : syno l Generics gs gv -> syn l ImplSubject ks k -> syno l Wheres ws wv ->
    syns l (With "ImplMember" ImplMember) ms -> (gs = [] -> starts_with KLeftAngle ks = false) ->
    syn l Item
      (flag u KUnsafe ++ Sym KImpl :: gs ++ ks ++ ws ++ Sym KLeftCurly :: concat (spelled ms) ++ [Sym KRightCurly])
      (item "Impl" (node "Impl" [mark u; gv; k; or_nil wv; VList (asts ms)]))
| ExternItem ss s ms : syno l Str ss s -> syns l (With "ExternBlockMember" ExternMember) ms ->
    syn l Item (Sym KExtern :: ss ++ Sym KLeftCurly :: concat (spelled ms) ++ [Sym KRightCurly])
      (item "ExternBlock" (node "ExternBlock" [s; VList (asts ms)]))

(** ** Implementations, traits, foreign functions *)
| ImplInherent ps v : syn l Ty ps v -> starts_with KBang ps = false ->
    syn l ImplSubject ps (VVar "ImplKind" "Inherent" (node "ImplOfInherent" [v]))
| ImplTrait (b : bool) ps v qs w : syn l Ty ps v -> (b = false -> starts_with KBang ps = false) -> syn l ImplTarget qs w ->
    syn l ImplSubject (flag b KBang ++ ps ++ Sym KFor :: qs)
      (VVar "ImplKind" "Trait" (node "ImplOfTrait" [mark b; v; w]))
| ImplFor ps v : syn l Ty ps v -> syn l ImplTarget ps (VVar "ImplOfTraitType" "Type" v)
| ImplForAll : syn l ImplTarget [Sym KDoublePeriod] (VVar "ImplOfTraitType" "Wildcard" hole)
| ImplConst vs vv ns n ps v es e : syno l (Vis false) vs vv -> syn l Name ns n -> syn l Ty ps v -> syn l (Expr false) es e ->
    syn l ImplMember (vs ++ Sym KConst :: ns ++ Sym KColon :: ps ++ Sym KEquals :: es ++ [Sym KSemicolon])
      (VVar "ImplMember" "Const" (node "ImplConst" [vv; n; v; e]))
| ImplFn hs h bs b : syn l FnHeader hs h -> syn l Block bs b ->
    syn l ImplMember (hs ++ bs) (VVar "ImplMember" "Function" (node "ImplFunction" [h; b]))
| ImplType ns n ps v : syn l Name ns n -> syn l Ty ps v ->
    syn l ImplMember (Sym KType :: ns ++ Sym KEquals :: ps ++ [Sym KSemicolon])
      (VVar "ImplMember" "Type" (node "ImplType" [n; v]))
| ImplMacro ps v : syn l MacroItem ps v -> macro_start ps = true ->
    syn l ImplMember ps (VVar "ImplMember" "MacroCall" v)
| TraitFn hs h bs b : syn l TraitFnHeader hs h -> syn l TraitFnBody bs b ->
    syn l TraitMember (hs ++ bs) (VVar "TraitMember" "Function" (node "TraitMemberFunction" [h; b]))
| TraitFnDefault ps v : syn l Block ps v -> syn l TraitFnBody ps (VSome v)
| TraitFnRequired : syn l TraitFnBody [Sym KSemicolon] VNone
| TraitType ns n bs b ds d : syn l Name ns n -> syno l BoundsDecl bs b -> syno l TyDefault ds d ->
    syn l TraitMember (Sym KType :: ns ++ bs ++ ds ++ [Sym KSemicolon])
      (VVar "TraitMember" "Type" (node "TraitMemberType" [n; b; d]))
| TraitConst ns n ps v es e : syn l Name ns n -> syn l Ty ps v -> syno l (Assigned OfConst) es e ->
    syn l TraitMember (Sym KConst :: ns ++ Sym KColon :: ps ++ es ++ [Sym KSemicolon])
      (VVar "TraitMember" "Const" (node "TraitMemberConst" [n; v; e]))
| TraitMacro ps v : syn l MacroItem ps v -> macro_start ps = true ->
    syn l TraitMember ps (VVar "TraitMember" "MacroCall" v)
| ExternStatic vs vv m ns n ps v : syno l (Vis false) vs vv -> syn l Name ns n -> syn l Ty ps v ->
    syn l ExternMember (vs ++ Sym KStatic :: flag m KMut ++ ns ++ Sym KColon :: ps ++ [Sym KSemicolon])
      (VVar "ExternBlockMember" "Static" (node "ExternBlockMemberStatic" [vv; mark m; n; v]))
| ExternType vs vv ns n : syno l (Vis false) vs vv -> syn l Name ns n ->
    syn l ExternMember (vs ++ Sym KType :: ns ++ [Sym KSemicolon])
      (VVar "ExternBlockMember" "Type" (node "ExternBlockMemberType" [vv; n]))
| ExternFn vs vv ns n gs gv args a rs r ws wv : syno l (Vis false) vs vv -> syn l Name ns n -> syno l Generics gs gv ->
    syn l ExternArgs args a -> syno l ReturnTy rs r -> syno l Wheres ws wv ->
    syn l ExternMember (vs ++ Sym KFn :: ns ++ gs ++ args ++ rs ++ ws ++ [Sym KSemicolon])
      (VVar "ExternBlockMember" "Function" (node "ExternBlockMemberFunction" [vv; n; gv; a; r; or_nil wv]))
| ExternArgsOf args c : syns l ExternArg args ->
    syn l ExternArgs (Sym KLeftParen :: commas (spelled args) c ++ [Sym KRightParen]) (VList (asts args))
| ExternArgOf ns n ps v : syn l Pattern ns n -> syn l Ty ps v ->
    syn l ExternArg (ns ++ Sym KColon :: ps)
      (VVar "ExternBlockMemberFunctionArgument" "Named" (node "ExternBlockMemberFunctionArgumentNamed" [n; v]))
| ExternVariadic : syn l ExternArg [Sym KTriplePeriod]
    (VVar "ExternBlockMemberFunctionArgument" "Variadic" (VNode "ExternBlockMemberFunctionArgumentVariadic" [hole]))

(** ** Functions *)
| HeaderOf vs vv qs qv ns n gs gv args a rs r ws wv : syno l (Vis false) vs vv -> syn l Qualifiers qs qv -> syn l Name ns n ->
    syno l Generics gs gv -> syn l Args args a -> syno l ReturnTy rs r -> syno l Wheres ws wv ->
    syn l FnHeader (vs ++ qs ++ Sym KFn :: ns ++ gs ++ args ++ rs ++ ws)
      (node "FunctionHeader" [vv; qv; n; gv; a; r; or_nil wv])
| TraitHeaderOf vs vv qs qv ns n gs gv args a rs r ws wv : syno l (Vis false) vs vv -> syn l Qualifiers qs qv -> syn l Name ns n ->
    syno l Generics gs gv -> syn l TraitArgs args a -> syno l ReturnTy rs r -> syno l Wheres ws wv ->
    syn l TraitFnHeader (vs ++ qs ++ Sym KFn :: ns ++ gs ++ args ++ rs ++ ws)
      (node "TraitImplFunctionHeader" [vv; qv; n; gv; a; r; or_nil wv])
| ArgsPlain args c : syns l Arg args ->
    syn l Args (Sym KLeftParen :: commas (spelled args) c ++ [Sym KRightParen]) (VList (asts args))
| ArgsSelf ss s args c : syn l (SelfArg (match args with [] => c | _ => true end)) ss s -> syns l Arg args ->
    syn l Args (Sym KLeftParen :: ss ++ commas (spelled args) c ++ [Sym KRightParen])
      (VList (VVar "Argument" "SelfArgument" s :: asts args))
| TraitArgsPlain args c : syns l TraitArg args ->
    syn l TraitArgs (Sym KLeftParen :: commas (spelled args) c ++ [Sym KRightParen]) (VList (asts args))
| TraitArgsSelf ss s args c : syn l (SelfArg (match args with [] => c | _ => true end)) ss s -> syns l TraitArg args ->
    syn l TraitArgs (Sym KLeftParen :: ss ++ commas (spelled args) c ++ [Sym KRightParen])
      (VList (VVar "TraitImplArgument" "SelfArgument" s :: asts args))
| SelfValue m x c :
    syn l (SelfArg c) (flag m KMut ++ Word KSelfIdent x :: flag c KComma)
      (VVar "SelfArgument" "Shorthand" (node "SelfArgumentShorthand"
        [if m then VSome (VVar "SelfArgumentShorthandQualifier" "Mut" hole) else VNone; VNode "Ident" [VExt x]]))
| SelfReference ks k x c : syn l RefKind ks k ->
    syn l (SelfArg c) (ks ++ Word KSelfIdent x :: flag c KComma)
      (VVar "SelfArgument" "Shorthand" (node "SelfArgumentShorthand"
        [VSome (VVar "SelfArgumentShorthandQualifier" "Reference" k); VNode "Ident" [VExt x]]))
| SelfTyped m x ps v c : syn l Ty ps v ->
    syn l (SelfArg c) (flag m KMut ++ Word KSelfIdent x :: Sym KColon :: ps ++ flag c KComma)
      (VVar "SelfArgument" "Longhand" (node "SelfArgumentLonghand" [mark m; VNode "Ident" [VExt x]; v]))
| ArgOf ns n ps v : syn l Pattern ns n -> syn l Ty ps v ->
    syn l Arg (ns ++ Sym KColon :: ps) (VVar "Argument" "Named" (node "NamedArgument" [n; v]))
| TraitArgOf ns n ps v : syn l Pattern ns n -> syn l Ty ps v ->
    syn l TraitArg (ns ++ Sym KColon :: ps) (VVar "TraitImplArgument" "Named" (node "TraitImplArgumentNamed" [VSome n; v]))

(** ** Literals *)
| CharLitOf x : syn l CharLit [Word KCharacter x] (VNode "Character" [VExt x; VExt x])
| ByteLitOf x : syn l ByteLit [Word KByte x] (VNode "Byte" [hole; VNode "Character" [VExt x; VExt x]])
| ByteStrOf k x : In k [KByteString; KByteStringRaw] ->
    syn l ByteStr [Word k x] (VNode "ByteString" [hole; VNode "String" [VExt x; VExt x]])
| NumLitOf n : syn l NumLit [Num n] (number_ast n)

(** ** Patterns *)
| PatternOf ps v : syn l PatternKind ps v -> syn l Pattern ps (node "Pattern" [VNone; v])
| PatternAt r m ns n ps v : syn l Name ns n -> starts_with KSelfIdent ns = false -> syn l PatternKind ps v ->
    syn l Pattern (flag r KRef ++ flag m KMut ++ ns ++ Sym KAt :: ps)
      (node "Pattern" [VSome (node "PatternName" [mark r; mark m; n]); v])
| PatternChar ps x y : syn l CharLit ps (VNode "Character" [VExt x; y]) ->
    syn l PatternKind ps (VVar "PatternKind" "Character" (VNode "PatternCharacter" [hole; VNode "Character" [VExt x; y]]))
| PatternByte ps v : syn l ByteLit ps (VNode "Byte" [hole; v]) ->
    syn l PatternKind ps (VVar "PatternKind" "Byte" (VNode "PatternByte" [hole; VNode "Byte" [hole; v]]))
| PatternNum ps v : syn l PatternNumber ps v -> syn l PatternKind ps (VVar "PatternKind" "Number" v)
| PatternNumberOf m ps v : syn l NumLit ps v ->
    syn l PatternNumber (flag m KMinus ++ ps) (node "PatternNumber" [mark m; v])
| PatternByteStr ps v : syn l ByteStr ps (VNode "ByteString" [hole; v]) ->
    syn l PatternKind ps (VVar "PatternKind" "ByteString" (VNode "PatternByteString" [hole; VNode "ByteString" [hole; v]]))
| PatternStr ps x y : syn l Str ps (VNode "String" [VExt x; y]) ->
    syn l PatternKind ps (VVar "PatternKind" "String" (VNode "PatternString" [hole; VNode "String" [VExt x; y]]))
| PatternRef (m : bool) ps v : syn l Pattern ps v -> (m = false -> starts_with KMut ps = false) ->
    syn l PatternKind (Sym KAmpersand :: flag m KMut ++ ps)
      (VVar "PatternKind" "Reference" (node "PatternReference" [mark m; v]))
| PatternBoxed ps v : syn l Pattern ps v ->
    syn l PatternKind (Sym KBox :: ps) (VVar "PatternKind" "Box" (node "PatternBox" [v]))
| PatternTupled ps v : syn l PatternTuple ps v -> syn l PatternKind ps (VVar "PatternKind" "Tuple" v)
| PatternTupleOf ms c : syns l TupleMember ms ->
    syn l PatternTuple (Sym KLeftParen :: commas (spelled ms) c ++ [Sym KRightParen]) (node "PatternTuple" [VList (asts ms)])
| TuplePattern ps v : syn l Pattern ps v -> syn l TupleMember ps (VVar "PatternTupleMember" "Pattern" v)
| TupleRest : syn l TupleMember [Sym KDoublePeriod] (VVar "PatternTupleMember" "Wildcard" hole)
| PatternSlice ms c : syns l SliceMember ms ->
    syn l PatternKind (Sym KLeftSquare :: commas (spelled ms) c ++ [Sym KRightSquare])
      (VVar "PatternKind" "Slice" (node "PatternSlice" [VList (asts ms)]))
| SlicePattern ps v : syn l Pattern ps v -> syn l SliceMember ps (VVar "PatternSliceMember" "Pattern" v)
| SliceSub r m ns n : syn l Name ns n ->
    syn l SliceMember (flag r KRef ++ flag m KMut ++ ns ++ [Sym KAt; Sym KDoublePeriod])
      (VVar "PatternSliceMember" "Subslice" (node "PatternSliceSubslice" [mark r; mark m; n]))
| SliceRest : syn l SliceMember [Sym KDoublePeriod] (VVar "PatternSliceMember" "Wildcard" hole)
| PatternStruct ps v fs c (w : bool) : syn l PathedIdent ps v -> starts_with KSelfIdent ps = false -> syns l FieldPattern fs ->
    (fs <> [] -> w = true -> c = true) ->
    syn l PatternKind (ps ++ Sym KLeftCurly :: commas (spelled fs) c ++ flag w KDoublePeriod ++ [Sym KRightCurly])
      (VVar "PatternKind" "Struct" (node "PatternStruct" [v; VList (asts fs); VBool w]))
| FieldLong ns n ps v : syn l Name ns n -> syn l Pattern ps v ->
    syn l FieldPattern (ns ++ Sym KColon :: ps)
      (VVar "PatternStructField" "Long" (node "PatternStructFieldLong" [n; v]))
| FieldShort ps r m v t : syn l PatternIdent ps (node "PatternIdent" [r; m; v; t]) ->
    syn l FieldPattern ps (VVar "PatternStructField" "Short" (node "PatternStructFieldShort" [node "PatternIdent" [r; m; v; t]]))
| PatternIdented ps v : syn l PatternIdent ps v -> syn l PatternKind ps (VVar "PatternKind" "Ident" v)
| PatternIdentOf r m ps v ts t : syn l PathedIdent ps v -> starts_with KSelfIdent ps = false -> syno l PatternTuple ts t ->
    syn l PatternIdent (flag r KRef ++ flag m KMut ++ ps ++ ts) (node "PatternIdent" [mark r; mark m; v; t])
| PatternMacro ps v n a : syn l MacroCall ps (node "MacroCall" [v; n; a]) -> starts_with KSelfIdent ps = false ->
    syn l PatternKind ps (VVar "PatternKind" "MacroCall" (node "PatternMacroCall" [node "MacroCall" [v; n; a]]))
| PatternExclusive ss s es e : syn l RangeEnd ss s -> syn l RangeEnd es e ->
    syn l PatternKind (ss ++ Sym KDoublePeriod :: es) (VVar "PatternKind" "RangeExclusive" (node "PatternRangeExclusive" [s; e]))
| PatternInclusive ss s os o es e : syn l RangeEnd ss s -> syn l RangeOp os o -> syn l RangeEnd es e ->
    syn l PatternKind (ss ++ os ++ es) (VVar "PatternKind" "RangeInclusive" (node "PatternRangeInclusive" [s; o; e]))
| RangeOpLegacy : syn l RangeOp [Sym KTriplePeriod] (VVar "RangeInclusiveOperator" "Legacy" hole)
| RangeOpOf : syn l RangeOp [Sym KDoublePeriodEquals] (VVar "RangeInclusiveOperator" "Recommended" hole)
| RangeIdent ps v : syn l PathedIdent ps v -> starts_with KSelfIdent ps = false ->
    syn l RangeEnd ps (VVar "PatternRangeComponent" "Ident" v)
| RangeChar ps v : syn l CharLit ps v -> syn l RangeEnd ps (VVar "PatternRangeComponent" "Character" v)
| RangeByte ps v : syn l ByteLit ps v -> syn l RangeEnd ps (VVar "PatternRangeComponent" "Byte" v)
| RangeNum ps v : syn l PatternNumber ps v -> syn l RangeEnd ps (VVar "PatternRangeComponent" "Number" v)
| MacroCallOf ps v ns n d o c ts : syn l PathedIdent ps v -> syno l Name ns n -> In (d, (o, c)) delimiters -> balanced o c ts ->
    syn l MacroCall (ps ++ Sym KBang :: ns ++ Sym o :: map Raw ts ++ [Sym c])
      (node "MacroCall" [v; n; VVar "MacroCallArgs" d hole])

(** ** Expressions

    Operators: every infix operator takes what stands to its left as a whole, and so
    does everything written behind an expression.  (This is the code's grammar, not
    Rust's: see C37.) *)
| ExprChain b h t ps v : syn l (Chain h t) ps v -> (b = true -> before_brace t = true) -> syn l (Expr b) ps v
| ExprFrom b h t ps v : syn l (Chain h t) ps v -> open_for t KDoublePeriod = true -> (b = true -> restricted l = true) ->
    syn l (Expr b) (ps ++ [Sym KDoublePeriod]) (bare (expr "Range" [VSome v; VNone]))
| ExprAll : syn l (Expr false) [Sym KDoublePeriod] (bare (expr "Range" [VNone; VNone]))
| ChainAtom h t ps v : syn l (With "Expression" (Atom h t)) ps v -> syn l (Chain h t) ps v
| ChainPrefix os a o t ps v e : syn l (With "OperatorPrefix" PrefixOp) os (node "Attributed<OperatorPrefix>" [a; o]) ->
    syn l (Operand false t) ps v -> prefix o v e ->
    syn l (Chain Free t) (os ++ ps) (node "Attributed<Expression>" [a; e])
| ChainInfix h t ps v k x t' qs w e : syn l (Chain h t) ps v -> open_for t k = true ->
    syn l (Operand (range_kind k) t') qs w -> infix k v w e ->
    syn l (Chain (operated h) t') (ps ++ Raw (Tk k x) :: qs) (bare e)
| ChainField h t ps v cs c : syn l (Chain h t) ps v -> open_for t KPeriod = true -> syn l PathComponent cs c ->
    syn l (Chain (accessed h) AtField) (ps ++ Sym KPeriod :: cs) (bare (expr "FieldAccess" [v; VVar "FieldName" "Path" c]))
| ChainIndexed h t ps v n : syn l (Chain h t) ps v -> open_for t KPeriod = true ->
    n_radix n = RDecimal -> n_fractional n = None -> n_exponent n = None -> n_type_suffix n = None ->
    n_underscores n = 0 ->
    syn l (Chain (accessed h) AtEnd) (ps ++ [Sym KPeriod; Num n]) (bare (expr "FieldAccess" [v; VVar "FieldName" "Number" hole]))
| ChainTry h t ps v : syn l (Chain h t) ps v -> open_for t KQuestionMark = true ->
    syn l (Chain (accessed h) AtEnd) (ps ++ [Sym KQuestionMark]) (bare (expr "TryOperator" [v]))
| ChainCall h t ps v args c : syn l (Chain h t) ps v -> open_for t KLeftParen = true -> syns Anywhere (Expr false) args ->
    syn l (Chain (operated h) AtEnd) (ps ++ Sym KLeftParen :: commas (spelled args) c ++ [Sym KRightParen])
      (bare (expr "Call" [v; VList (asts args)]))
| ChainSlice h t ps v qs w : syn l (Chain h t) ps v -> open_for t KLeftSquare = true -> syn Anywhere (Expr false) qs w ->
    syn l (Chain (operated h) AtEnd) (ps ++ Sym KLeftSquare :: qs ++ [Sym KRightSquare]) (bare (expr "Slice" [v; w]))
| ChainAs h t ps v o qs k : syn l (Chain h t) ps v -> open_for t KAs = true -> syn l (TyKind o) qs k ->
    syn l (Chain (operated h) (AtType o)) (ps ++ Sym KAs :: qs) (bare (expr "AsType" [v; node "Type" [k; VList []]]))
| ChainAscription h t ps v qs w : syn l (Chain h t) ps v -> open_for t KColon = true -> syn l Ty qs w ->
    syn l (Chain (operated h) (AtType true)) (ps ++ Sym KColon :: qs) (bare (expr "Ascription" [v; w]))
| OperandAtom r h t ps v : syn (behind r l) (With "Expression" (Atom h t)) ps v -> syn l (Operand r t) ps v
| OperandPrefix r os a o t ps v e :
    syn (behind r l) (With "OperatorPrefix" PrefixOp) os (node "Attributed<OperatorPrefix>" [a; o]) ->
    syn l (Operand false t) ps v -> prefix o v e ->
    syn l (Operand r t) (os ++ ps) (node "Attributed<Expression>" [a; e])
| OpDeref : syn l PrefixOp [Sym KAsterisk] (VVar "OperatorPrefix" "Dereference" hole)
| OpNot : syn l PrefixOp [Sym KBang] (VVar "OperatorPrefix" "Not" hole)
| OpNegate : syn l PrefixOp [Sym KMinus] (VVar "OperatorPrefix" "Negate" hole)
| OpBox : syn l PrefixOp [Sym KBox] (VVar "OperatorPrefix" "Box" hole)
| OpRef m : syn l PrefixOp (Sym KAmpersand :: flag m KMut) (VVar "OperatorPrefix" "Reference" (mark m))
| OpUpTo : syn l PrefixOp [Sym KDoublePeriod] (VVar "OperatorPrefix" "RangeExclusive" hole)
| OpThrough os o : syn l RangeOp os o -> syn l PrefixOp os (VVar "OperatorPrefix" "RangeInclusive" o)

(** Control flow *)
| AtomIf ps v : syn l If ps v -> syn l (Atom Blocky AtEnd) ps (expression "If" v)
| IfPlain cs c bs b : syn BeforeBlock (Expr true) cs c -> syn l Block bs b ->
    syn l If (Sym KIf :: cs ++ bs) (node "If" [c; b; VList []; VNone])
| IfElse cs c bs b es e : syn BeforeBlock (Expr true) cs c -> syn l Block bs b -> syn l Block es e ->
    syn l If (Sym KIf :: cs ++ bs ++ Sym KElse :: es) (node "If" [c; b; VList []; VSome e])
| IfElseIf cs c bs b es e : syn BeforeBlock (Expr true) cs c -> syn l Block bs b -> syn l If es e ->
    syn l If (Sym KIf :: cs ++ bs ++ Sym KElse :: es) (node "If" [c; b; VList [e]; VNone])
| LabelOf ps v : syn l Lifetime ps v -> syn l Label (ps ++ [Sym KColon]) v
| AtomFor ls lv ps p cs c bs b : syno l Label ls lv -> syn l Pattern ps p -> syn BeforeBlock (Expr true) cs c -> syn l Block bs b ->
    syn l (Atom Blocky AtEnd) (ls ++ Sym KFor :: ps ++ Sym KIn :: cs ++ bs) (expr "ForLoop" [lv; p; c; b])
| AtomLoop ls lv bs b : syno l Label ls lv -> syn l Block bs b ->
    syn l (Atom Blocky AtEnd) (ls ++ Sym KLoop :: bs) (expr "Loop" [lv; b])
| AtomWhile ls lv cs c bs b : syno l Label ls lv -> syn BeforeBlock (Expr true) cs c -> syn l Block bs b ->
    syn l (Atom Blocky AtEnd) (ls ++ Sym KWhile :: cs ++ bs) (expr "While" [lv; c; b])
| AtomMatch cs c a ps vs : syn BeforeBlock (Expr true) cs c -> syn l (Arms a) ps (VList vs) ->
    syn l (Atom Blocky AtEnd) (Sym KMatch :: cs ++ Sym KLeftCurly :: ps ++ [Sym KRightCurly]) (expr "Match" [c; VList vs])
| AtomMatchLast cs c a ps vs qs v : syn BeforeBlock (Expr true) cs c -> syn l (Arms a) ps (VList vs) -> syn l (Arm false) qs v ->
    syn l (Atom Blocky AtEnd) (Sym KMatch :: cs ++ Sym KLeftCurly :: ps ++ qs ++ [Sym KRightCurly])
      (expr "Match" [c; VList (vs ++ [v])])
| ArmsNil : syn l (Arms Start) [] (VList [])
| ArmsComma a b ps vs qs v : syn l (Arms a) ps (VList vs) -> syn l (Arm b) qs v ->
    syn l (Arms AfterSep) (ps ++ qs ++ [Sym KComma]) (VList (vs ++ [v]))
| ArmsBrace a ps vs qs v : syn l (Arms a) ps (VList vs) -> syn l (Arm true) qs v ->
    syn l (Arms AfterBlock) (ps ++ qs) (VList (vs ++ [v]))
| ArmBrace attrs pats gs gv bs b : syns l Attribute attrs -> pats <> [] -> syns l Pattern pats -> syno l Guard gs gv ->
    syn Anywhere Block bs (node "Block" b) ->
    syn l (Arm true) (concat (spelled attrs) ++ separated KPipe (spelled pats) false ++ gs ++ Sym KThickArrow :: bs)
      (node "MatchArm" [VList (asts attrs); VList (asts pats); gv;
        VVar "MatchHand" "Brace" (bare (expression "Block" (node "Block" b)))])
| ArmExpr attrs pats gs gv es e : syns l Attribute attrs -> pats <> [] -> syns l Pattern pats -> syno l Guard gs gv ->
    syn Anywhere (Expr false) es e -> starts_with KLeftCurly es = false ->
    syn l (Arm false) (concat (spelled attrs) ++ separated KPipe (spelled pats) false ++ gs ++ Sym KThickArrow :: es)
      (node "MatchArm" [VList (asts attrs); VList (asts pats); gv; VVar "MatchHand" "Expression" e])
| GuardOf ps v : syn Anywhere (Expr false) ps v -> syn l Guard (Sym KIf :: ps) v
| AtomUnsafe bs b : syn l Block bs b -> syn l (Atom Blocky AtEnd) (Sym KUnsafe :: bs) (expr "UnsafeBlock" [b])
| AtomAsync m bs b : syn l Block bs b ->
    syn l (Atom Free AtEnd) (Sym KAsync :: flag m KMove ++ bs) (expr "AsyncBlock" [b; mark m])
| AtomBlock bs b : syn l Block bs b -> l <> RangeBeforeBlock -> syn l (Atom Blocky AtEnd) bs (expression "Block" b)
| AtomReturn : syn l (Atom Free (AtRest false)) [Sym KReturn] (expr "Return" [VNone])
| AtomReturnValue b ps v : syn l (Expr b) ps v -> syn l (Atom Free (AtRest b)) (Sym KReturn :: ps) (expr "Return" [VSome v])
| AtomContinue : syn l (Atom Free (AtRest true)) [Sym KContinue] (expr "Continue" [VNone])
| AtomContinueAt ps v : syn l Lifetime ps v -> syn l (Atom Free AtEnd) (Sym KContinue :: ps) (expr "Continue" [VSome v])
| AtomBreak ls lv : syno l Lifetime ls lv -> syn l (Atom Free (AtRest false)) (Sym KBreak :: ls) (expr "Break" [lv; VNone])
| AtomBreakValue ls lv b ps v : syno l Lifetime ls lv -> syn l (Expr b) ps v -> (ls = [] -> starts_with KLifetime ps = false) ->
    syn l (Atom Free (AtRest b)) (Sym KBreak :: ls ++ ps) (expr "Break" [lv; VSome v])
| AtomLet ps p ts t : syn l Pattern ps p -> syno l LetTy ts t ->
    syn l (Atom Free (AtRest false)) (Sym KLet :: ps ++ ts) (expr "Let" [p; t; VNone])
| AtomLetValue b ps p ts t es e : syn l Pattern ps p -> syno l LetTy ts t -> syn l (Assigned (OfLet b)) es e ->
    syn l (Atom Free (AtRest b)) (Sym KLet :: ps ++ ts ++ es) (expr "Let" [p; t; VSome e])
| LetTyOf ps v : syn l Ty ps v -> syn l LetTy (Sym KColon :: ps) v

(** Values *)
| AtomParen ps v : syn Anywhere (Expr false) ps v ->
    syn l (Atom Free AtEnd) (Sym KLeftParen :: ps ++ [Sym KRightParen]) (expr "Parenthetical" [v])
| AtomTuple ts c : syns Anywhere (Expr false) ts -> (List.length ts = 1 -> c = true) ->
    syn l (Atom Free AtEnd) (Sym KLeftParen :: commas (spelled ts) c ++ [Sym KRightParen]) (expr "Tuple" [VList (asts ts)])
| AtomArray ts c : syns Anywhere (Expr false) ts ->
    syn l (Atom Free AtEnd) (Sym KLeftSquare :: commas (spelled ts) c ++ [Sym KRightSquare])
      (expression "Array" (VVar "Array" "Explicit" (node "ArrayExplicit" [VList (asts ts)])))
| AtomRepeat ps v qs w : syn Anywhere (Expr false) ps v -> syn l (Expr false) qs w ->
    syn l (Atom Free AtEnd) (Sym KLeftSquare :: ps ++ Sym KSemicolon :: qs ++ [Sym KRightSquare])
      (expression "Array" (VVar "Array" "Repeated" (node "ArrayRepeated" [v; w])))
| AtomChar ps v : syn l CharLit ps v -> syn l (Atom Free AtEnd) ps (expression "Character" v)
| AtomStr ps v : syn l Str ps v -> syn l (Atom Free AtEnd) ps (expression "String" v)
| AtomByte ps v : syn l ByteLit ps v -> syn l (Atom Free AtEnd) ps (expression "Byte" v)
| AtomByteStr ps v : syn l ByteStr ps v -> syn l (Atom Free AtEnd) ps (expression "ByteString" v)
| AtomNumber ps v : syn l NumLit ps v -> syn l (Atom Free AtEnd) ps (expression "Number" v)
| AtomMacro ps v ns n d o c ts : syn l PathedIdent ps v -> syno l Name ns n -> In (d, (o, c)) delimiters -> balanced o c ts ->
    syn l (Atom (if String.eqb d "Curly" then Barred else path_front Called ps) AtEnd)
      (ps ++ Sym KBang :: ns ++ Sym o :: map Raw ts ++ [Sym c])
      (expr "MacroCall" [v; n; VVar "MacroCallArgs" d hole])
| AtomClosure a m args c b ps v : syns l ClosureArg args -> syn l (Expr b) ps v ->
    syn l (Atom Free (AtRest b)) (flag a KAsync ++ flag m KMove ++ Sym KPipe :: commas (spelled args) c ++ Sym KPipe :: ps)
      (expr "Closure" [mark a; mark m; VList (asts args); VNone; v])
| AtomClosureTyped a m args c ts t bs b : syns l ClosureArg args -> syn l Ty ts t -> syn l Block bs (node "Block" b) ->
    l <> RangeBeforeBlock ->
    syn l (Atom Free AtEnd)
      (flag a KAsync ++ flag m KMove ++ Sym KPipe :: commas (spelled args) c ++ [Sym KPipe; Sym KThinArrow] ++ ts ++ bs)
      (expr "Closure" [mark a; mark m; VList (asts args); VSome t; bare (expression "Block" (node "Block" b))])
| ClosureArgOf ps p ts t : syn l Pattern ps p -> syno l ClosureArgTy ts t ->
    syn l ClosureArg (ps ++ ts) (node "ClosureArg" [p; t])
| ClosureArgTyOf ps v : syn l Ty ps v -> syn l ClosureArgTy (Sym KColon :: ps) v
| AtomValue ps v : syn l PathedIdent ps v ->
    syn l (Atom (path_front Free ps) (AtPath (restricted l))) ps (expr "Value" [v; VNone])
| AtomStruct ps v fs c ss s : l = Anywhere -> syn l PathedIdent ps v -> syns l FieldInit fs -> syno l Splat ss s ->
    (fs <> [] -> ss <> [] -> c = true) ->
    syn l (Atom (path_front Free ps) AtEnd) (ps ++ Sym KLeftCurly :: commas (spelled fs) c ++ ss ++ [Sym KRightCurly])
      (expr "Value" [v; VSome (node "StructLiteral" [VList (asts fs); s])])
| FieldInitOf ns n ps v : syn l Name ns n -> syn Anywhere (Expr false) ps v ->
    syn l FieldInit (ns ++ Sym KColon :: ps) (node "StructLiteralField" [n; v])
| FieldInitShort ns x : syn l Name ns (VNode "Ident" [VExt x]) ->
    syn l FieldInit ns (node "StructLiteralField" [VNode "Ident" [VExt x];
      bare (expr "Value" [node "PathedIdent" [VList [node "PathComponent" [VNode "Ident" [VExt x]; VNone]]]; VNone])])
| SplatOf ps v : syn Anywhere (Expr false) ps v -> syn l Splat (Sym KDoublePeriod :: ps) v
| AtomDisambiguation ps v ts tv cs : syn l Ty ps v -> syno l AsNamed ts tv -> syns l PathComponent cs ->
    syn l (Atom Free AtField)
      (Sym KLeftAngle :: ps ++ ts ++ [Sym KRightAngle] ++
       (match cs with [] => [] | _ => Sym KDoubleColon :: separated KDoubleColon (spelled cs) false end))
      (expr "Disambiguation" [v; tv; VList (asts cs)])

(** ** Blocks and statements *)
| StmtsNil : syn l (Stmts Start) [] (VList [])
| StmtsItem a ps vs qs v : syn l (Stmts a) ps (VList vs) -> syn l (With "Item" Item) qs v ->
    syn l (Stmts AfterItem) (ps ++ qs) (VList (vs ++ [VVar "Statement" "Item" v]))
| StmtsExpr a ps vs h t qs v : syn l (Stmts a) ps (VList vs) -> syn l (Chain h t) qs v -> In h [Free; Blocky] ->
    syn l (Stmts AfterSep) (ps ++ qs ++ [Sym KSemicolon]) (VList (vs ++ [VVar "Statement" "Expression" v]))
| StmtsItemSep a ps vs qs v : syn l (Stmts a) ps (VList vs) -> syn l (With "Item" Item) qs v ->
    syn l (Stmts AfterSep) (ps ++ qs ++ [Sym KSemicolon]) (VList (vs ++ [VVar "Statement" "Item" v]))
| StmtsEmpty a ps vs : syn l (Stmts a) ps (VList vs) -> In a [Start; AfterSep] ->
    syn l (Stmts AfterSep) (ps ++ [Sym KSemicolon]) (VList (vs ++ [VVar "Statement" "Empty" hole]))
| StmtsBlocky a ps vs qs v : syn l (Stmts a) ps (VList vs) -> syn l (Chain Blocky AtEnd) qs v ->
    syn l (Stmts AfterBlock) (ps ++ qs) (VList (vs ++ [VVar "Statement" "Expression" v]))
| BlockOf a ps vs : syn l (Stmts a) ps (VList vs) -> a <> AfterBlock ->
    syn l Block (Sym KLeftCurly :: ps ++ [Sym KRightCurly]) (node "Block" [VList vs; VNone])
| BlockBlocky a ps vs qs v : syn l (Stmts a) ps (VList vs) -> syn l (Chain Blocky AtEnd) qs v ->
    syn l Block (Sym KLeftCurly :: ps ++ qs ++ [Sym KRightCurly]) (node "Block" [VList vs; VSome v])
| BlockValue a ps vs h t qs v : syn l (Stmts a) ps (VList vs) -> a <> AfterSep -> syn l (Chain h t) qs v -> In h [Free; Called] ->
    syn l Block (Sym KLeftCurly :: ps ++ qs ++ [Sym KRightCurly]) (node "Block" [VList vs; VSome v])
(** Behind a semicolon the code takes the last expression for a statement (see C41). *)
| BlockLost ps vs h t qs v : syn l (Stmts AfterSep) ps (VList vs) -> syn l (Chain h t) qs v -> In h [Free; Called] ->
    syn l Block (Sym KLeftCurly :: ps ++ qs ++ [Sym KRightCurly])
      (node "Block" [VList (vs ++ [VVar "Statement" "Expression" v]); VNone])

with syno (l : place) : cat -> list piece -> val -> Prop :=
| Absent c : syno l c [] VNone
| Present c ps v : syn l c ps v -> syno l c ps (VSome v)

with syns (l : place) : cat -> list text -> Prop :=
| Nil c : syns l c []
| Cons c ps v ts : syn l c ps v -> syns l c ts -> syns l c ((ps, v) :: ts).
