(** Every rule of [RustSpec] is followed by the parser. *)

From Coq Require Import String List NArith Arith Bool Lia.
From Verif Require Import Base Peresil Token Schema Value Nt Grammar Points Table Static Amb Sem First OutlineSpec Reads Syntax UseSpec UseOk RustSpec Rules NestedOk TypesOk BoundsOk ItemsOk MembersOk PatternsOk AtomsOk YardOk ExprOk StmtsOk.
Import ListNotations.
Local Open Scope string_scope.
Local Open Scope list_scope.
Local Open Scope nat_scope.

Scheme syn_mut := Minimality for syn Sort Prop
with syno_mut := Minimality for syno Sort Prop
with syns_mut := Minimality for syns Sort Prop.

(** What an atom ends with tells whether it may end a statement. *)
Lemma atom_shaped l c ps v : syn l c ps v -> match c with Atom h _ => shaped h (bare v) | _ => True end.
Proof.
  intros H. destruct H; try exact I; try reflexivity.
  - repeat (destruct H1 as [H1|H1]; [injection H1 as <- <- <-|]); try contradiction; cbn [String.eqb Ascii.eqb Bool.eqb];
      try exact I; unfold path_front; repeat match goal with |- context [match ?x with _ => _ end] => destruct x; try exact I; try reflexivity end.
  - unfold path_front; repeat match goal with |- context [match ?x with _ => _ end] => destruct x; try exact I; try reflexivity end.
  - unfold path_front; repeat match goal with |- context [match ?x with _ => _ end] => destruct x; try exact I; try reflexivity end.
Qed.

Lemma shaped_attributed h a v : shaped h (bare v) -> shaped h (node "Attributed<Expression>" [a; v]).
Proof. exact (fun H => H). Qed.

Lemma syn_with l c ps v : syn l c ps v -> match c with With t (Atom h e as d) => exists attrs qs w,
  v = node ("Attributed<" ++ t ++ ">") [VList (asts attrs); w] /\ syn l d qs w | _ => True end.
Proof. intros H. destruct H; try exact I. destruct c; try exact I. do 3 eexists. split; [reflexivity|eassumption]. Qed.

Lemma with_shaped l h t ps v : syn l (With "Expression" (Atom h t)) ps v -> shaped h v.
Proof.
  intros H. destruct (syn_with _ _ _ _ H) as (attrs & qs & w & -> & A). apply shaped_attributed. exact (atom_shaped _ _ _ _ A).
Qed.

Lemma arm_separates l c ps v : syn l c ps v -> match c with Arm b => is_implicit_separator v = b | _ => True end.
Proof. intros H. destruct H; try exact I; reflexivity. Qed.

(** What is shown of each category. *)
Definition holds (l : place) (c : cat) (ps : list piece) (v : val) : Prop :=
  match c with
  | Chain h t => chained l h t ps v
  | Operand r t => operand l r t ps v
  | Stmts a => exists vs, v = VList vs /\ stmts l a ps vs
  | Arms a => exists vs, v = VList vs /\ arms l a ps vs
  | _ => good l c ps v
  end.
Definition special (c : cat) : bool := match c with Chain _ _ | Operand _ _ | Stmts _ | Arms _ => true | _ => false end.
Definition holdso (l : place) (c : cat) (ps : list piece) (v : val) : Prop := if special c then True else goodo l c ps v.
Definition holdss (l : place) (c : cat) (ts : list text) : Prop := if special c then True else goods l c ts.

Lemma holds_good l c ps v : special c = false -> holds l c ps v = good l c ps v.
Proof. destruct c; intros E; try reflexivity; discriminate E. Qed.

Ltac lists := repeat match goal with H : exists vs, VList _ = VList vs /\ _ |- _ =>
  let vs := fresh "vs" in let E := fresh in destruct H as (vs & E & H); injection E as <- end.
Theorem all_followed l c ps v : syn l c ps v -> holds l c ps v.
Proof.
  apply (syn_mut holds holdso holdss); clear; intros.
  all: unfold holdso, holdss in *; cbn [holds special] in *.
  - (* NameOf *) eapply name_ok; eassumption.
  - (* MemberOf *) eapply member_ok; eassumption.
  - (* LifetimeOf *) eapply lifetime_ok; eassumption.
  - (* StrOf *) eapply str_ok; eassumption.
  - (* AttrLine *) eapply attr_line_ok; eassumption.
  - (* AttrBlock *) eapply attr_block_ok; eassumption.
  - (* AttrLiteral *) eapply attr_literal_ok; eassumption.
  - (* WithAttributes *) destruct c; try discriminate; (eapply with_ok; eassumption).
  - (* PathOf *) eapply path_ok; eassumption.
  - (* ComponentPlain *) eapply path_component_plain_ok; eassumption.
  - (* ComponentTurbofish *) eapply path_component_turbofish_ok; eassumption.
  - (* Pathed *) eapply pathed_ok; eassumption.
  - (* TyPlain *) eapply ty_plain_ok; eassumption.
  - (* TyMore *) eapply ty_more_ok; eassumption.
  - (* TyArray *) eapply ty_array_ok; eassumption.
  - (* TySlice *) eapply ty_slice_ok; eassumption.
  - (* TyTuple *) eapply ty_tuple_ok; eassumption.
  - (* TyNever *) eapply ty_never_ok; eassumption.
  - (* TyPointer *) eapply ty_pointer_ok; eassumption.
  - (* TyReference *) eapply ty_reference_ok; eassumption.
  - (* TyDyn *) eapply ty_dyn_ok; eassumption.
  - (* TyImpl *) eapply ty_impl_ok; eassumption.
  - (* TyName *) eapply ty_name_ok; eassumption.
  - (* TyFn *) eapply ty_fn_ok; eassumption.
  - (* TyFor *) eapply ty_for_ok; eassumption.
  - (* TyDisambiguation *) eapply ty_disambiguation_ok; eassumption.
  - (* AsNamedOf *) eapply as_named_ok; eassumption.
  - (* TyAddNamed *) eapply ty_add_named_ok; eassumption.
  - (* TyAddLife *) eapply ty_add_life_ok; eassumption.
  - (* RefKindOf *) eapply ref_kind_ok; eassumption.
  - (* NamedOf *) eapply named_ok; eassumption.
  - (* TyComponentPlain *) eapply component_plain_ok; eassumption.
  - (* TyComponentGeneric *) eapply component_generic_ok; eassumption.
  - (* GenericsFn *) eapply generics_fn_ok; eassumption.
  - (* GenericsFnReturn *) eapply generics_fn_return_ok; eassumption.
  - (* GenericsAngle *) eapply generics_angle_ok; eassumption.
  - (* MemberEqual *) eapply member_equal_ok; eassumption.
  - (* MemberBound *) eapply member_bound_ok; eassumption.
  - (* MemberLife *) eapply member_life_ok; eassumption.
  - (* MemberType *) eapply member_type_ok; eassumption.
  - (* FunctionOf *) eapply function_ok; eassumption.
  - (* FunctionReturn *) eapply function_return_ok; eassumption.
  - (* VariadicOf *) eapply variadic_ok; eassumption.
  - (* QualifiersOf *) eapply qualifiers_ok; eassumption.
  - (* QualifiersExtern *) eapply qualifiers_extern_ok; eassumption.
  - (* ArgType *) eapply arg_type_ok; eassumption.
  - (* ArgNamed *) eapply arg_named_ok; eassumption.
  - (* Returns *) eapply returns_ok; eassumption.
  - (* ForLives *) eapply for_lives_ok; eassumption.
  - (* HrtbNamed *) eapply hrtb_named_ok; eassumption.
  - (* HrtbFunction *) eapply hrtb_function_ok; eassumption.
  - (* HrtbReference *) eapply hrtb_reference_ok; eassumption.
  - (* NoBounds *) eapply no_bounds_ok; eassumption.
  - (* SomeBounds *) eapply some_bounds_ok; eassumption.
  - (* BoundLife *) eapply bound_life_ok; eassumption.
  - (* BoundNormal *) eapply bound_normal_ok; eassumption.
  - (* BoundRelaxed *) eapply bound_relaxed_ok; eassumption.
  - (* BoundNamed *) eapply bound_named_ok; eassumption.
  - (* BoundFor *) eapply bound_for_ok; eassumption.
  - (* BoundsAfterColon *) eapply bounds_after_colon_ok; eassumption.
  - (* DefaultOf *) eapply default_ok; eassumption.
  - (* LifetimeParam *) eapply lifetime_param_ok; eassumption.
  - (* LifeBoundsOf *) eapply life_bounds_ok; eassumption.
  - (* TypeParam *) eapply type_param_ok; eassumption.
  - (* ConstParam *) eapply const_param_ok; eassumption.
  - (* GenericsOf *) eapply generics_ok; eassumption.
  - (* WhereLife *) eapply where_life_ok; eassumption.
  - (* WhereTy *) eapply where_ty_ok; eassumption.
  - (* WheresOf *) eapply wheres_ok; eassumption.
  - (* VisPub *) eapply vis_pub_ok; eassumption.
  - (* VisPubSelf *) eapply vis_pub_self_ok; eassumption.
  - (* VisPubCrate *) eapply vis_pub_crate_ok; eassumption.
  - (* VisPubPath *) eapply vis_pub_path_ok; eassumption.
  - (* VisCrate *) eapply vis_crate_ok; eassumption.
  - (* VisEither *) eapply vis_either_ok; eassumption.
  - (* NamedField *) eapply named_field_ok; eassumption.
  - (* UnnamedField *) eapply unnamed_field_ok; eassumption.
  - (* UnnamedPubField *) eapply unnamed_pub_field_ok; eassumption.
  - (* BraceFieldsOf *) eapply brace_fields_ok; eassumption.
  - (* TupleFieldsOf *) eapply tuple_fields_ok; eassumption.
  - (* UseTreeOf *) eapply use_tree_ok; eassumption.
  - (* RenameOf *) eapply rename_ok; eassumption.
  - (* AssignedOf *) eapply assigned_ok; eassumption.
  - (* MacroItemOf *) eapply macro_item_ok; eassumption.
  - (* InnerLine *) eapply inner_line_ok; eassumption.
  - (* InnerBlock *) eapply inner_block_ok; eassumption.
  - (* InnerLiteral *) eapply inner_literal_ok; eassumption.
  - (* InnerItem *) eapply inner_item_ok; eassumption.
  - (* MacroItemItem *) eapply macro_item_item_ok; eassumption.
  - (* UseItem *) eapply use_item_ok; eassumption.
  - (* ExternCrateItem *) eapply extern_crate_item_ok; eassumption.
  - (* ConstItem *) eapply const_item_ok; eassumption.
  - (* StaticItem *) eapply static_item_ok; eassumption.
  - (* TypeAliasItem *) eapply type_alias_item_ok; eassumption.
  - (* ModuleItem *) eapply module_item_ok; eassumption.
  - (* ModuleFileItem *) eapply module_file_item_ok; eassumption.
  - (* StructBrace *) eapply struct_brace_ok; eassumption.
  - (* StructTuple *) eapply struct_tuple_ok; eassumption.
  - (* StructUnit *) eapply struct_unit_ok; eassumption.
  - (* UnionItem *) eapply union_item_ok; eassumption.
  - (* EnumItem *) eapply enum_item_ok; eassumption.
  - (* VariantOf *) eapply variant_ok; eassumption.
  - (* VariantTuple *) eapply variant_tuple_ok; eassumption.
  - (* VariantStruct *) eapply variant_struct_ok; eassumption.
  - (* VariantUnit *) eapply variant_unit_ok; eassumption.
  - (* FnItem *) eapply fn_item_ok; eassumption.
  - (* TraitItem *) eapply trait_item_ok; eassumption.
  - (* ImplItem *) eapply impl_item_ok; eassumption.
  - (* ExternItem *) eapply extern_item_ok; eassumption.
  - (* ImplInherent *) eapply impl_inherent_ok; eassumption.
  - (* ImplTrait *) eapply impl_trait_ok; eassumption.
  - (* ImplFor *) eapply impl_for_ok; eassumption.
  - (* ImplForAll *) eapply impl_for_all_ok; eassumption.
  - (* ImplConst *) eapply impl_const_ok; eassumption.
  - (* ImplFn *) eapply impl_fn_ok; eassumption.
  - (* ImplType *) eapply impl_type_ok; eassumption.
  - (* ImplMacro *) eapply impl_macro_ok; eassumption.
  - (* TraitFn *) eapply trait_fn_ok; eassumption.
  - (* TraitFnDefault *) eapply trait_fn_default_ok; eassumption.
  - (* TraitFnRequired *) eapply trait_fn_required_ok; eassumption.
  - (* TraitType *) eapply trait_type_ok; eassumption.
  - (* TraitConst *) eapply trait_const_ok; eassumption.
  - (* TraitMacro *) eapply trait_macro_ok; eassumption.
  - (* ExternStatic *) eapply extern_static_ok; eassumption.
  - (* ExternType *) eapply extern_type_ok; eassumption.
  - (* ExternFn *) eapply extern_fn_ok; eassumption.
  - (* ExternArgsOf *) eapply extern_args_ok; eassumption.
  - (* ExternArgOf *) eapply extern_arg_ok; eassumption.
  - (* ExternVariadic *) eapply extern_variadic_ok; eassumption.
  - (* HeaderOf *) eapply header_ok; eassumption.
  - (* TraitHeaderOf *) eapply trait_header_ok; eassumption.
  - (* ArgsPlain *) eapply args_plain_ok; eassumption.
  - (* ArgsSelf *) eapply args_self_ok; eassumption.
  - (* TraitArgsPlain *) eapply trait_args_plain_ok; eassumption.
  - (* TraitArgsSelf *) eapply trait_args_self_ok; eassumption.
  - (* SelfValue *) eapply self_value_ok; eassumption.
  - (* SelfReference *) eapply self_reference_ok; eassumption.
  - (* SelfTyped *) eapply self_typed_ok; eassumption.
  - (* ArgOf *) eapply arg_of_ok; eassumption.
  - (* TraitArgOf *) eapply trait_arg_ok; eassumption.
  - (* CharLitOf *) eapply char_lit_ok; eassumption.
  - (* ByteLitOf *) eapply byte_lit_ok; eassumption.
  - (* ByteStrOf *) eapply byte_str_ok; eassumption.
  - (* NumLitOf *) eapply num_lit_ok; eassumption.
  - (* PatternOf *) eapply pattern_of_ok; eassumption.
  - (* PatternAt *) eapply pattern_at_ok; eassumption.
  - (* PatternChar *) eapply pattern_char_ok; eassumption.
  - (* PatternByte *) eapply pattern_byte_ok; eassumption.
  - (* PatternNum *) eapply pattern_num_ok; eassumption.
  - (* PatternNumberOf *) eapply pattern_number_ok; eassumption.
  - (* PatternByteStr *) eapply pattern_byte_str_ok; eassumption.
  - (* PatternStr *) eapply pattern_str_ok; eassumption.
  - (* PatternRef *) eapply pattern_ref_ok; eassumption.
  - (* PatternBoxed *) eapply pattern_boxed_ok; eassumption.
  - (* PatternTupled *) eapply pattern_tupled_ok; eassumption.
  - (* PatternTupleOf *) eapply pattern_tuple_ok; eassumption.
  - (* TuplePattern *) eapply tuple_pattern_ok; eassumption.
  - (* TupleRest *) eapply tuple_rest_ok; eassumption.
  - (* PatternSlice *) eapply pattern_slice_ok; eassumption.
  - (* SlicePattern *) eapply slice_pattern_ok; eassumption.
  - (* SliceSub *) eapply slice_sub_ok; eassumption.
  - (* SliceRest *) eapply slice_rest_ok; eassumption.
  - (* PatternStruct *) eapply pattern_struct_ok; eassumption.
  - (* FieldLong *) eapply field_long_ok; eassumption.
  - (* FieldShort *) eapply field_short_ok; eassumption.
  - (* PatternIdented *) eapply pattern_idented_ok; eassumption.
  - (* PatternIdentOf *) eapply pattern_ident_ok; eassumption.
  - (* PatternMacro *) eapply pattern_macro_ok; eassumption.
  - (* PatternExclusive *) eapply pattern_exclusive_ok; eassumption.
  - (* PatternInclusive *) eapply pattern_inclusive_ok; eassumption.
  - (* RangeOpLegacy *) eapply range_legacy_ok; eassumption.
  - (* RangeOpOf *) eapply range_op_ok; eassumption.
  - (* RangeIdent *) eapply range_ident_ok; eassumption.
  - (* RangeChar *) eapply range_char_ok; eassumption.
  - (* RangeByte *) eapply range_byte_ok; eassumption.
  - (* RangeNum *) eapply range_num_ok; eassumption.
  - (* MacroCallOf *) eapply macro_call_ok; eassumption.
  - (* ExprChain *) eapply expr_chain_ok; eassumption.
  - (* ExprFrom *) eapply expr_from_ok; eassumption.
  - (* ExprAll *) eapply expr_all_ok; eassumption.
  - (* ChainAtom *) eapply chain_atom; [eassumption|eapply with_shaped; eassumption].
  - (* ChainPrefix *) eapply chain_prefix; eassumption.
  - (* ChainInfix *) eapply chain_infix; eassumption.
  - (* ChainField *) eapply chain_field; eassumption.
  - (* ChainIndexed *) eapply chain_indexed; eassumption.
  - (* ChainTry *) eapply chain_try; eassumption.
  - (* ChainCall *) eapply chain_call; eassumption.
  - (* ChainSlice *) eapply chain_slice; eassumption.
  - (* ChainAs *) eapply chain_as; eassumption.
  - (* ChainAscription *) eapply chain_ascription; eassumption.
  - (* OperandAtom *) eapply operand_atom; eassumption.
  - (* OperandPrefix *) eapply operand_prefix; eassumption.
  - (* OpDeref *) eapply op_deref_ok; eassumption.
  - (* OpNot *) eapply op_not_ok; eassumption.
  - (* OpNegate *) eapply op_negate_ok; eassumption.
  - (* OpBox *) eapply op_box_ok; eassumption.
  - (* OpRef *) eapply op_ref_ok; eassumption.
  - (* OpUpTo *) eapply op_up_to_ok; eassumption.
  - (* OpThrough *) eapply op_through_ok; eassumption.
  - (* AtomIf *) eapply atom_if_ok; eassumption.
  - (* IfPlain *) eapply if_plain_ok; eassumption.
  - (* IfElse *) eapply if_else_ok; eassumption.
  - (* IfElseIf *) eapply if_else_if_ok; eassumption.
  - (* LabelOf *) eapply label_ok; eassumption.
  - (* AtomFor *) eapply atom_for_ok; eassumption.
  - (* AtomLoop *) eapply atom_loop_ok; eassumption.
  - (* AtomWhile *) eapply atom_while_ok; eassumption.
  - (* AtomMatch *) lists; eapply atom_match_ok; eassumption.
  - (* AtomMatchLast *) lists; eapply atom_match_last_ok; [eassumption|eassumption|eassumption|now eapply (arm_separates _ (Arm false)); eauto].
  - (* ArmsNil *) lists; eexists; split; [reflexivity|]; eapply arms_nil_ok; eassumption.
  - (* ArmsComma *) lists; eexists; split; [reflexivity|]; eapply arms_comma_ok; eassumption.
  - (* ArmsBrace *) lists; eexists; split; [reflexivity|]; eapply arms_brace_ok; [eassumption|eassumption|now eapply (arm_separates _ (Arm true)); eauto].
  - (* ArmBrace *) eapply arm_brace_ok; eassumption.
  - (* ArmExpr *) eapply arm_expr_ok; eassumption.
  - (* GuardOf *) eapply guard_ok; eassumption.
  - (* AtomUnsafe *) eapply atom_unsafe_ok; eassumption.
  - (* AtomAsync *) eapply atom_async_ok; eassumption.
  - (* AtomBlock *) eapply atom_block_ok; eassumption.
  - (* AtomReturn *) eapply atom_return_ok; eassumption.
  - (* AtomReturnValue *) eapply atom_return_value_ok; eassumption.
  - (* AtomContinue *) eapply atom_continue_ok; eassumption.
  - (* AtomContinueAt *) eapply atom_continue_at_ok; eassumption.
  - (* AtomBreak *) eapply atom_break_ok; eassumption.
  - (* AtomBreakValue *) eapply atom_break_value_ok; eassumption.
  - (* AtomLet *) eapply atom_let_ok; eassumption.
  - (* AtomLetValue *) eapply atom_let_value_ok; eassumption.
  - (* LetTyOf *) eapply let_ty_ok; eassumption.
  - (* AtomParen *) eapply atom_paren_ok; eassumption.
  - (* AtomTuple *) eapply atom_tuple_ok; eassumption.
  - (* AtomArray *) eapply atom_array_ok; eassumption.
  - (* AtomRepeat *) eapply atom_repeat_ok; eassumption.
  - (* AtomChar *) eapply atom_char_ok; eassumption.
  - (* AtomStr *) eapply atom_str_ok; eassumption.
  - (* AtomByte *) eapply atom_byte_ok; eassumption.
  - (* AtomByteStr *) eapply atom_byte_str_ok; eassumption.
  - (* AtomNumber *) eapply atom_number_ok; eassumption.
  - (* AtomMacro *) eapply atom_macro_ok; eassumption.
  - (* AtomClosure *) eapply atom_closure_ok; eassumption.
  - (* AtomClosureTyped *) eapply atom_closure_typed_ok; eassumption.
  - (* ClosureArgOf *) eapply closure_arg_ok; eassumption.
  - (* ClosureArgTyOf *) eapply closure_arg_ty_ok; eassumption.
  - (* AtomValue *) eapply atom_value_ok; eassumption.
  - (* AtomStruct *) eapply atom_struct_ok; eassumption.
  - (* FieldInitOf *) eapply field_init_ok; eassumption.
  - (* FieldInitShort *) eapply field_init_short_ok; eassumption.
  - (* SplatOf *) eapply splat_ok; eassumption.
  - (* AtomDisambiguation *) eapply atom_disambiguation_ok; eassumption.
  - (* StmtsNil *) lists; eexists; split; [reflexivity|]; eapply stmts_nil_ok; eassumption.
  - (* StmtsItem *) lists; eexists; split; [reflexivity|]; eapply stmts_item_ok; eassumption.
  - (* StmtsExpr *) lists; eexists; split; [reflexivity|]; eapply stmts_expr_ok; eassumption.
  - (* StmtsItemSep *) lists; eexists; split; [reflexivity|]; eapply stmts_item_sep_ok; eassumption.
  - (* StmtsEmpty *) lists; eexists; split; [reflexivity|]; eapply stmts_empty_ok; eassumption.
  - (* StmtsBlocky *) lists; eexists; split; [reflexivity|]; eapply stmts_blocky_ok; eassumption.
  - (* BlockOf *) lists; eapply block_of_ok; eassumption.
  - (* BlockBlocky *) lists; eapply block_blocky_ok; eassumption.
  - (* BlockValue *) lists; eapply block_value_ok; eassumption.
  - (* BlockLost *) lists; eapply block_lost_ok; eassumption.
  - (* Absent *) destruct (special c); [exact I|left; split; reflexivity].
  - (* Present *) destruct (special c) eqn:S; [exact I|rewrite holds_good in * by exact S; right; eauto].
  - (* Nil *) destruct (special c); [exact I|constructor].
  - (* Cons *) destruct (special c) eqn:S; [exact I|rewrite holds_good in * by exact S; constructor; assumption].
Qed.

Theorem followed l c ps v : syn l c ps v -> special c = false -> good l c ps v.
Proof. intros H E. rewrite <- holds_good by exact E. now apply all_followed. Qed.
