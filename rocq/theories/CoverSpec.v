(** What it means that a node holds no token besides its parts and the words of
    its construct.  The words are those of the tables of LandSpec; nothing here
    refers to the parser. *)

From Coq Require Import String List Arith Bool.
From Verif Require Import Base Token Schema Value Grammar SpanSpec MarkSpec LandSpec Expect.
Import ListNotations.
Local Open Scope string_scope.
Local Open Scope list_scope.
Local Open Scope nat_scope.

(** The words a construct is written with: those of its shape and the separators
    of its lists. *)
Definition piece_words (p : piece) : list tkind := match p with Part _ => [] | Word ks | WordOf _ ks => ks end.
Definition matcher_words (m : matcher) : list tkind := match m with MK k => [k] | MNumber => [] end.

(** Words of constructs that have no shape there, or of which the shape says
    less: the operators; the semicolon behind a macro, a module or a method; the
    braces of a module; [self] and [crate] in a visibility; the colons in front of
    the path of [use]; the colons of the fields of a struct literal (the extents of
    the fields are empty); the comma behind [self], which the parser makes part of it. *)
Definition binary_operators : list tkind :=
  [KAmpersand; KAmpersandEquals; KAsterisk; KCaret; KCaretEquals; KDivideEquals; KDoubleAmpersand; KDoubleEquals;
   KDoubleLeftAngle; KDoublePipe; KDoubleRightAngle; KEquals; KGreaterThanOrEquals; KLeftAngle; KLessThanOrEquals; KMinus; KMinusEquals;
   KNotEqual; KPercent; KPercentEquals; KPipe; KPipeEquals; KPlus; KPlusEquals; KRightAngle; KShiftLeftEquals; KShiftRightEquals; KSlash;
   KTimesEquals].

Definition more_words : list (string * list tkind) :=
  [("Binary", binary_operators); ("FieldAccess", [KPeriod]); ("Slice", [KLeftSquare; KRightSquare]); ("AsType", [KAs]); ("Ascription", [KColon]);
   ("TryOperator", [KQuestionMark]);
   ("SelfArgumentLonghand", [KComma]); ("SelfArgumentShorthand", [KComma]); ("MacroCall", [KSemicolon]); ("TraitMemberFunction", [KSemicolon]);
   ("Module", [KLeftCurly; KRightCurly; KSemicolon]); ("VisibilityPublic", [KSelfIdent; KCrate]); ("PatternSliceSubslice", [KAt; KDoublePeriod]);
   ("ExternBlockMemberFunctionArgumentVariadic", [KTriplePeriod]); ("Use", [KDoubleColon]); ("UsePath", [KDoubleColon]); ("UseTailGlob", [KAsterisk]);
   ("StructLiteral", [KColon])].

Definition own_words (k : string) : list tkind :=
  flat_map (fun '(k', l) => if String.eqb k k' then flat_map piece_words l else []) shapes ++
  flat_map (fun '(k', _, ms) => if String.eqb k k' then flat_map matcher_words ms else []) separators ++
  flat_map (fun '(k', l) => if String.eqb k k' then l else []) more_words.

(** The constructs of which this is claimed. *)
Definition tidy : list string :=
  [(* items *) "Attributed<Item>"; "Function"; "FunctionQualifiers"; "Attributed<GenericDeclarationLifetime>"; "Attributed<GenericDeclarationType>";
   "Attributed<GenericDeclarationConst>"; "GenericDeclarationLifetime"; "GenericDeclarationType"; "GenericDeclarationConst"; "SelfArgumentLonghand";
   "SelfArgumentShorthand"; "NamedArgument"; "Where"; "WhereLifetime"; "WhereType"; "TraitBoundLifetime"; "TraitBoundNormal"; "TraitBoundRelaxed";
   "Attributed<StructDefinitionFieldNamed>"; "Attributed<StructDefinitionFieldUnnamed>"; "StructDefinitionFieldUnnamed"; "StructDefinitionFieldNamed";
   "Attributed<EnumVariant>"; "Attributed<TraitMember>"; "TraitMemberFunction"; "TraitMemberType"; "TraitMemberConst"; "VisibilityPublic";
   "TraitImplArgumentNamed"; "Attributed<ImplMember>"; "ImplOfInherent"; "ImplOfTrait"; "ImplFunction"; "ImplType"; "ImplConst"; "Const"; "Static"; "Crate";
   "ExternBlock"; "Attributed<ExternBlockMember>"; "ExternBlockMemberStatic"; "ExternBlockMemberType"; "ExternBlockMemberFunctionArgumentNamed";
   "ExternBlockMemberFunctionArgumentVariadic"; "Use"; "UsePath"; "UseTailIdent"; "UseTailGlob"; "Module"; "AttributeLiteral"; "AttributeContainingLiteral";
   (* names and types *) "Path"; "PathedIdent"; "PathComponent"; "TypeReference"; "TypeReferenceKind"; "TypePointer"; "TypeHigherRankedTraitBounds";
   "TypeDynTrait"; "TypeImplTrait"; "TypeNamed"; "TypeNamedComponent"; "TypeArray"; "TypeSlice"; "AssociatedType"; "AssociatedTypeValueEqual";
   "AssociatedTypeValueBound"; "TypeFunctionArgumentNamed";
   (* patterns *) "Pattern"; "PatternIdent"; "PatternSliceSubslice"; "PatternStructFieldLong"; "PatternNumber"; "PatternReference"; "PatternBox";
   "PatternRangeExclusive"; "PatternRangeInclusive"; "PatternStructFieldShort"; "PatternByte"; "PatternCharacter"; "PatternByteString"; "PatternString";
   "PatternMacroCall";
   (* statements and expressions *) "Attributed<Expression>"; "Let"; "MacroCall"; "If"; "IfLet"; "ForLoop"; "Loop"; "While"; "WhileLet"; "ArrayRepeated";
   "ClosureArg"; "Return"; "Continue"; "Break"; "UnsafeBlock"; "AsyncBlock"; "Value"; "StructLiteral"; "Binary"; "FieldAccess"; "Slice"; "AsType";
   "Ascription"; "TryOperator"].
Definition is_tidy (k : string) : bool := existsb (String.eqb k) tidy.

(** * What the tables demand of a value *)

(** The extents of a node's fields. *)
Definition inner_extents (k : string) (fs : list val) : list extent :=
  match struct_fields k with
  | Some fields => flat_map (fun x => if String.eqb (fst x) "extent" then [] else extents (snd x)) (combine (map field_name fields) fs)
  | None => []
  end.

(** The token lies in the extent. *)
Definition lies_in (t : token) (x : extent) : Prop := fst x <= fst (token_extent t) /\ snd (token_extent t) <= snd x.

(** A token in the node is a word of the construct or lies in a field.  Nothing is
    said of the tokens that may be read in two steps. *)
Definition accounted (toks : list token) (k : string) (fs : list val) : Prop :=
  forall x t, get_field "extent" (VNode k fs) = Some (VExt x) -> In t toks -> fst (token_extent t) < snd (token_extent t) ->
    compound t = false -> lies_in t x ->
    (exists w e, t = Tk w e /\ In w (own_words k)) \/ exists z, In z (inner_extents k fs) /\ lies_in t z.

Fixpoint tidied (toks : list token) (v : val) : Prop :=
  match v with
  | VSome v | VVar _ _ v => tidied toks v
  | VPair a b => tidied toks a /\ tidied toks b
  | VList l => fold_right (fun x P => tidied toks x /\ P) True l
  | VNode k fs => fold_right (fun x P => tidied toks x /\ P) True fs /\ (is_tidy k = true -> accounted toks k fs)
  | _ => True
  end.
