(** src/whitespace_apportioner.rs: distributing the whitespace of a file over
    its AST with a mutating visitor. *)

From Coq Require Import String List Bool Arith.
From Verif Require Import Base Peresil Token Schema Value Grammar.
Import ListNotations.
Local Open Scope string_scope.
Local Open Scope nat_scope.

(** Lines 27-28: [BTreeMap<usize, Whitespace>], as the list of its entries in
    ascending order of keys. *)
Definition wsmap : Type := list (nat * val).

(** [BTreeMap::insert]. *)
Fixpoint ws_insert (k : nat) (w : val) (m : wsmap) : wsmap :=
  match m with
  | [] => [(k, w)]
  | (k', w') :: m' =>
      match k ?= k' with
      | Lt => (k, w) :: m
      | Eq => (k, w) :: m'
      | Gt => (k', w') :: ws_insert k w m'
      end
  end.

(** Lines 31-33 [push]. *)
Definition ws_push (m : wsmap) (w : val) : wsmap :=
  match extent_of w with
  | Some e => ws_insert (fst e) w m
  | None => m
  end.

Definition in_range (e : extent) (k : nat) : bool := (fst e <=? k) && (k <? snd e).

(** Lines 39-51 [divvy_up]: the whitespace taken and the map left.
    [BTreeMap::range] panics when the range starts after its end. *)
Definition divvy_up (e : extent) (m : wsmap) : bres (list val * wsmap) :=
  if snd e <? fst e then BAbort Panicked
  else
    BOk (map snd (filter (fun x => in_range e (fst x)) m),
         filter (fun x => negb (in_range e (fst x))) m).

(** Lines 66-203: the types with an [exit_*] method. *)
Definition handled : list string :=
  ["ArrayExplicit"; "ArrayRepeated"; "AsType"; "Ascription"; "AssociatedType";
   "AttributeLiteral"; "AttributeContainingLiteral"; "Attributed<EnumVariant>";
   "Attributed<Expression>"; "Attributed<ExternBlockMember>";
   "Attributed<GenericDeclarationLifetime>"; "Attributed<GenericDeclarationType>";
   "Attributed<ImplMember>"; "Attributed<Item>"; "Attributed<StructDefinitionFieldNamed>";
   "Attributed<StructDefinitionFieldUnnamed>"; "Attributed<TraitMember>"; "Binary"; "Block";
   "Break"; "Call"; "Closure"; "ClosureArg"; "Const"; "Continue"; "Crate"; "Dereference";
   "Disambiguation"; "Enum"; "EnumVariant"; "ExpressionBox"; "ExternBlock";
   "ExternBlockMemberFunction"; "ExternBlockMemberFunctionArgumentNamed";
   "ExternBlockMemberStatic"; "ExternBlockMemberType"; "FieldAccess"; "ForLoop"; "Function";
   "FunctionHeader"; "FunctionQualifiers"; "GenericDeclarationLifetime";
   "GenericDeclarationType"; "GenericDeclarations"; "If"; "IfLet"; "Impl"; "ImplConst";
   "ImplFunction"; "ImplOfInherent"; "ImplOfTrait"; "ImplType"; "Let"; "Loop"; "MacroCall";
   "Match"; "MatchArm"; "Module"; "NamedArgument"; "Number"; "Parenthetical"; "Path";
   "PathComponent"; "PathedIdent"; "Pattern"; "PatternBox"; "PatternIdent";
   "PatternMacroCall"; "PatternName"; "PatternNumber"; "PatternRangeExclusive";
   "PatternRangeInclusive"; "PatternReference"; "PatternSlice"; "PatternSliceSubslice";
   "PatternStruct"; "PatternStructFieldLong"; "PatternStructFieldShort"; "PatternTuple";
   "Range"; "RangeInclusive"; "Reference"; "Return"; "SelfArgumentLonghand";
   "SelfArgumentShorthand"; "Slice"; "Static"; "Struct"; "StructDefinitionBodyBrace";
   "StructDefinitionBodyTuple"; "StructDefinitionFieldNamed";
   "StructDefinitionFieldUnnamed"; "StructLiteral"; "StructLiteralField"; "Trait";
   "TraitBoundLifetime"; "TraitBoundNormal"; "TraitBoundRelaxed"; "TraitBounds";
   "TraitImplArgumentNamed"; "TraitImplFunctionHeader"; "TraitMemberConst";
   "TraitMemberFunction"; "TraitMemberType"; "TryOperator"; "Tuple"; "Turbofish"; "Type";
   "TypeAlias"; "TypeArray"; "TypeDisambiguation"; "TypeFunction";
   "TypeFunctionArgumentNamed"; "TypeGenericsAngle"; "TypeGenericsFunction";
   "TypeHigherRankedTraitBounds"; "TypeImplTrait"; "TypeNamed"; "TypeNamedComponent";
   "TypePointer"; "TypeReference"; "TypeReferenceKind"; "TypeSlice"; "TypeTuple"; "Unary";
   "Union"; "UnsafeBlock"; "Use"; "UsePath"; "UseTailIdent"; "UseTailMulti"; "Value";
   "VisibilityPublic"; "Where"; "WhereLifetime"; "WhereType"; "While"; "WhileLet"].

(** [node.whitespace.extend(taken)]. *)
Fixpoint extend_nth (i : nat) (taken : list val) (fs : list val) : bres (list val) :=
  match i, fs with
  | 0, VList l :: fs' => BOk (VList (l ++ taken) :: fs')
  | S i, x :: fs' => bbind (extend_nth i taken fs') (fun r => BOk (x :: r))
  | _, _ => BAbort IllTyped
  end.

Definition extend_whitespace (k : string) (fields : list (string * ty * bool)) (fs : list val)
           (taken : list val) : bres val :=
  match field_index "whitespace" fields with
  | Some i => bbind (extend_nth i taken fs) (fun fs' => BOk (VNode k fs'))
  | None => BAbort IllTyped
  end.

(** The [exit_*] methods: lines 54-62 [apply!], 207-213 [exit_file]; the
    default method does nothing. *)
Definition exit_node (k : string) (fields : list (string * ty * bool)) (fs : list val) (m : wsmap)
  : bres (val * wsmap) :=
  if String.eqb k "File" then
    bbind (extend_whitespace k fields fs (map snd m)) (fun v => BOk (v, []))
  else if existsb (String.eqb k) handled then
    match extent_of (VNode k fs) with
    | Some e =>
        bbind (divvy_up e m) (fun '(taken, rest) =>
        bbind (extend_whitespace k fields fs taken) (fun v => BOk (v, rest)))
    | None => BAbort IllTyped
    end
  else BOk (VNode k fs, m).

(** [file.visit_mut(&mut ws)], src/lib.rs:345: the traversal of
    [Visit::visit_mut] (fuzzy-pickles-derive/src/lib.rs:72-80, src/ast.rs:1329-1337,
    src/visit.rs:49-94) with the apportioner, whose [visit_*] methods all return
    [Continue]. *)
Fixpoint apportion (v : val) (m : wsmap) {struct v} : bres (val * wsmap) :=
  match v with
  | VSome x => bbind (apportion x m) (fun '(x', m') => BOk (VSome x', m'))
  | VList l =>
      bbind ((fix go (l : list val) (m : wsmap) : bres (list val * wsmap) :=
                match l with
                | [] => BOk ([], m)
                | x :: l' =>
                    bbind (apportion x m) (fun '(x', m1) =>
                    bbind (go l' m1) (fun '(r, m2) => BOk (x' :: r, m2)))
                end) l m)
            (fun '(l', m') => BOk (VList l', m'))
  | VVar e k p => bbind (apportion p m) (fun '(p', m') => BOk (VVar e k p', m'))
  | VNode k fs =>
      match struct_fields k with
      | None => BAbort IllTyped
      | Some fields =>
          bbind ((fix go (fs : list val) (fields : list (string * ty * bool)) (m : wsmap)
                    : bres (list val * wsmap) :=
                    match fs, fields with
                    | [], [] => BOk ([], m)
                    | x :: fs', (_, _, visited) :: fields' =>
                        bbind (if visited then apportion x m else BOk (x, m)) (fun '(x', m1) =>
                        bbind (go fs' fields' m1) (fun '(r, m2) => BOk (x' :: r, m2)))
                    | _, _ => BAbort IllTyped
                    end) fs fields m)
                (fun '(fs', m') => exit_node k fields fs' m')
      end
  | _ => BOk (v, m)
  end.
