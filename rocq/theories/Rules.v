(** What it means that the parser follows a rule of [RustSpec], and the tactics
    that show it, rule by rule. *)

From Coq Require Import String List NArith Arith Bool Lia.
From Verif Require Import Base Peresil Token Schema Value Nt Grammar Points Table Static Amb Sem First OutlineSpec Reads Syntax UseSpec RustSpec.
Import ListNotations.
Local Open Scope string_scope.
Local Open Scope list_scope.
Local Open Scope nat_scope.

(** * Beginnings *)
Definition pbit (c : piece) : N :=
  match c with Sym k | Word k _ => bit k | Num _ => bit_number | Raw t => tbit t end.

(** The first piece, if there is one, is in [m]. *)
Definition begins (m : N) (ps : list piece) : Prop :=
  match ps with
  | [] => True
  | Raw _ :: _ => False
  | pc :: _ => subset (pbit pc) m = true
  end.

(** What may be offered where something of [m] was taken. *)
Definition opened (m : N) : N :=
  N.lor (fold_right (fun k acc => if subset (bit k) m then N.lor (could_tbl k) acc else acc) 0%N all_tkinds)
    (if subset bit_number m then number_mask else 0%N).

(** What is not offered there. *)
Definition others (m : N) : N := N.ldiff everything (opened m).

Lemma subset_refl a : subset a a = true.
Proof. unfold subset. rewrite N.land_diag. apply N.eqb_refl. Qed.

Lemma subset_lor_l a b c : subset a b = true -> subset a (N.lor b c) = true.
Proof.
  unfold subset. rewrite !N.eqb_eq. intros H. apply N.bits_inj. intros i. rewrite N.land_spec, N.lor_spec.
  rewrite <- H. rewrite N.land_spec. destruct (N.testbit a i), (N.testbit b i), (N.testbit c i); reflexivity.
Qed.

Lemma subset_lor_r a b c : subset a c = true -> subset a (N.lor b c) = true.
Proof. intros H. rewrite N.lor_comm. now apply subset_lor_l. Qed.

Lemma subset_trans a b c : subset a b = true -> subset b c = true -> subset a c = true.
Proof.
  unfold subset. rewrite !N.eqb_eq. intros H K. rewrite <- H at 1. rewrite <- N.land_assoc, K. exact H.
Qed.

Lemma subset_land a b c : subset a b = true -> N.land c b = 0%N -> N.land c a = 0%N.
Proof.
  unfold subset. rewrite N.eqb_eq. intros <- D. rewrite (N.land_comm a b), N.land_assoc, D. reflexivity.
Qed.

Lemma opened_kind k m : subset (bit k) m = true -> subset (could_tbl k) (opened m) = true.
Proof.
  intros S. unfold opened. apply subset_lor_l.
  assert (I : In k all_tkinds) by apply all_tkinds_complete. revert I. generalize all_tkinds. intros ks I.
  induction ks as [|k' ks IH]; [contradiction|]. cbn [fold_right]. destruct I as [->|I].
  - rewrite S. apply subset_lor_l, subset_refl.
  - destruct (subset (bit k') m); [apply subset_lor_r|]; auto.
Qed.

Lemma opened_piece pc ps m : begins m (pc :: ps) -> subset (pmask pc) (opened m) = true.
Proof.
  destruct pc as [k|k x|n|t]; cbn [begins pbit pmask]; intros S; [now apply opened_kind|now apply opened_kind| |contradiction].
  unfold opened. rewrite S. apply subset_lor_r, subset_refl.
Qed.

Lemma begins_sub a b ps : begins a ps -> subset a b = true -> begins b ps.
Proof. destruct ps as [|[] ps]; cbn [begins]; auto; intros; eapply subset_trans; eauto. Qed.

Lemma begins_app m a b : begins m a -> (a = [] -> begins m b) -> begins m (a ++ b).
Proof. destruct a as [|pc a]; [intros _ H; apply H; reflexivity|]. intros H _. exact H. Qed.

Lemma begins_cons m pc ps qs : begins m (pc :: ps) -> begins m (pc :: qs).
Proof. destruct pc; exact (fun x => x). Qed.

Lemma begins_separated m sep l c : Forall (begins m) l -> Forall (fun ps => ps <> []) l -> begins m (separated sep l c).
Proof.
  intros B NE. destruct l as [|ps l]; [exact I|]. inversion_clear B. inversion_clear NE.
  destruct l; cbn [separated]; apply begins_app; auto; intros ->; congruence.
Qed.

Definition bit_apart_at (k : tkind) : bool :=
  forallb (fun k' => if tkind_eqb k k' then true else N.eqb (N.land (bit k') (bit k)) 0) all_tkinds
  && N.eqb (N.land bit_number (bit k)) 0.

Lemma bit_apart_all : forall k, In k all_tkinds -> bit_apart_at k = true.
Proof. apply forallb_forall. vm_compute. reflexivity. Qed.

Lemma bit_apart k k' : tkind_eqb k k' = false -> N.land (bit k') (bit k) = 0%N.
Proof.
  intros E. destruct (proj1 (andb_true_iff _ _) (bit_apart_all k (all_tkinds_complete k))) as [B _].
  pose proof (proj1 (forallb_forall _ _) B k' (all_tkinds_complete k')) as C. cbv beta in C. rewrite E in C. now apply N.eqb_eq.
Qed.

Lemma number_apart k : N.land bit_number (bit k) = 0%N.
Proof.
  destruct (proj1 (andb_true_iff _ _) (bit_apart_all k (all_tkinds_complete k))) as [_ B]. now apply N.eqb_eq.
Qed.

Lemma subset_ldiff a m b : subset a m = true -> N.land a b = 0%N -> subset a (N.ldiff m b) = true.
Proof.
  unfold subset. rewrite !N.eqb_eq. intros H D. apply N.bits_inj. intros i. rewrite N.land_spec, N.ldiff_spec.
  assert (Di : N.testbit (N.land a b) i = false) by (rewrite D; apply N.bits_0). rewrite N.land_spec in Di.
  rewrite <- H. rewrite N.land_spec. rewrite <- H, N.land_spec in Di.
  destruct (N.testbit a i), (N.testbit m i), (N.testbit b i); try reflexivity; discriminate.
Qed.

Lemma begins_without m k ps : begins m ps -> starts_with k ps = false -> begins (N.ldiff m (bit k)) ps.
Proof.
  unfold starts_with. destruct ps as [|[k'|k' x|n|t] ps]; cbn [begins head_kind pbit]; auto.
  - intros S E. apply subset_ldiff; [exact S|now apply bit_apart].
  - intros S E. apply subset_ldiff; [exact S|now apply bit_apart].
  - intros S _. apply subset_ldiff; [exact S|apply number_apart].
Qed.

Section Begin.
  Variable toks : list token.

  Lemma begins_clear m ps p q F : begins m ps -> ps <> [] -> reads toks p ps q -> N.land F (opened m) = 0%N -> clear toks F p.
  Proof.
    intros B NE R D. destruct ps as [|pc ps]; [congruence|]. cbn [reads] in R. destruct R as (r & T & _).
    eapply clear_takes; [exact T|]. eapply subset_land; [eapply opened_piece; exact B|exact D].
  Qed.

  Lemma land_others m : N.land (others m) (opened m) = 0%N.
  Proof.
    unfold others. apply N.bits_inj. intros i. rewrite N.land_spec, N.ldiff_spec, N.bits_0.
    destruct (N.testbit everything i), (N.testbit (opened m) i); reflexivity.
  Qed.

  Lemma begins_others m ps p q : begins m ps -> ps <> [] -> reads toks p ps q -> clear toks (others m) p.
  Proof. intros B NE R. eapply begins_clear; eauto. apply land_others. Qed.

  Lemma begins_clear0 m ps p q F : begins m ps -> reads toks p ps q -> N.land F (opened m) = 0%N -> clear toks F q -> clear toks F p.
  Proof.
    intros B R D C. destruct ps as [|pc ps]; [cbn in R; now subst|]. eapply begins_clear; eauto. discriminate.
  Qed.
End Begin.

(** * Categories in the grammar *)
Definition amb (l : place) : ambiguity :=
  match l with Anywhere => Unambiguous | BeforeBlock => OnlyStructLiterals | RangeBeforeBlock => Maximum end.

Fixpoint gram (c : cat) : g :=
  match c with
  | Name => GNT N_ident
  | Member => GNT N_path_member
  | Lifetime => GNT N_lifetime
  | Str => GNT N_string_literal
  | Attribute => GNT N_attribute
  | With t c => attributed t (gram c)
  | Path => GNT N_path
  | PathComponent => GNT N_path_component
  | PathedIdent => GNT N_pathed_ident
  | MacroCall => GNT N_expr_macro_call
  | Ty => GNT N_typ
  | TyKind _ => GNT N_typ_kind
  | TyNamed _ => GNT N_typ_named
  | TyComponent _ => GNT N_typ_named_component
  | TyGenerics _ => GNT N_typ_generics
  | TyMember => GNT N_typ_generics_angle_member
  | TyAdditional _ => GNT N_typ_additional
  | TyFunction _ => GNT N_typ_function
  | TyArg => GNT N_typ_function_argument
  | TyVariadic => GNT N_typ_function_argument_variadic
  | TyHrtb _ => GNT N_typ_higher_ranked_trait_bounds
  | RefKind => GNT N_typ_reference_kind
  | AsNamed => GNT N_disambiguation_core_to_type
  | Hrtb => GNT N_higher_ranked_trait_bounds
  | Qualifiers => GNT N_function_qualifiers
  | ReturnTy => GNT N_function_return_type
  | Bounds => GNT N_trait_bounds
  | BoundsDecl => GNT N_generic_declaration_type_bounds
  | TyDefault => GNT N_generic_declaration_type_default
  | LifeBounds => GNT N_generic_declaration_lifetime_bounds
  | Bound _ => GNT N_trait_bound
  | BoundTy _ => GNT N_trait_bound_normal_child
  | GenericLifetime => GNT N_generic_declaration_lifetime
  | GenericType => GNT N_generic_declaration_type
  | GenericConst => GNT N_generic_declaration_const
  | Generics => GNT N_generic_declarations
  | WhereItem => GNT N_where_clause_item
  | Wheres => GNT N_where_clause
  | Vis _ => GNT N_visibility
  | FieldNamed => GNT N_struct_defn_field
  | FieldUnnamed => GNT N_tuple_defn_field
  | BraceFields => GNT N_struct_defn_body_brace_only
  | TupleFields => GNT N_struct_defn_body_tuple_only
  | UseTree => GNT N_use_path
  | MacroItem => GNT N_item_macro_call
  | InnerAttribute => GNT N_attribute_containing
  | Variant => GNT N_enum_variant
  | VariantBody => GNT N_enum_variant_body
  | Assigned OfVariant => GNT N_enum_discriminant
  | Assigned OfConst => GNT N_trait_member_const_value
  | Assigned (OfLet _) => GNT N_expr_let_rhs
  | Rename => GNT N_extern_crate_rename
  | Item => GNT N_item
  | FnHeader => GNT N_function_header
  | TraitFnHeader => GNT N_trait_impl_function_header
  | TraitFnBody => GNT N_trait_impl_function_body
  | Args => GNT N_function_arglist
  | TraitArgs => GNT N_trait_impl_function_arglist
  | ExternArgs => GNT N_extern_block_function_arglist
  | SelfArg _ => GNT N_self_argument
  | Arg => GNT N_function_argument
  | TraitArg => GNT N_trait_impl_function_argument
  | ExternArg => GNT N_extern_block_function_argument
  | ImplSubject => GNT N_p_impl_kind
  | ImplTarget => GNT N_type_or_wildcard
  | TraitMember => GNT N_trait_impl_member
  | ImplMember => GNT N_impl_member
  | ExternMember => GNT N_extern_block_member
  | CharLit => GNT N_character_literal
  | ByteLit => GNT N_expr_byte
  | ByteStr => GNT N_expr_byte_string
  | NumLit => GNT N_number_literal
  | Pattern => GNT N_pattern
  | PatternKind => GNT N_pattern_kind
  | PatternTuple => GNT N_pattern_tuple
  | PatternIdent => GNT N_pattern_ident
  | PatternNumber => GNT N_pattern_number
  | TupleMember => GNT N_pattern_tuple_member
  | SliceMember => GNT N_pattern_slice_member
  | FieldPattern => GNT N_pattern_struct_field
  | RangeEnd => GNT N_pattern_range_component
  | RangeOp => GNT N_range_inclusive_operator
  | Block => GNT N_block
  | Stmts _ => GImplicit t_semicolon (GNT N_statement)
  | Expr _ | Chain _ _ | Operand _ _ => GNT N_expression
  | PrefixOp => GNT N_operator_prefix
  | Atom _ _ => GNT N_expression_atom
  | If => GNT N_expr_if
  | Label => GNT N_loop_label
  | Arms _ => GImplicit t_comma (GNT N_match_arm)
  | Arm _ => GNT N_match_arm
  | Guard => GNT N_match_arm_guard
  | LetTy => GNT N_expr_let_type
  | ClosureArg => GNT N_expr_closure_arg
  | ClosureArgTy => GNT N_expr_closure_arg_type
  | FieldInit => GNT N_expr_value_struct_literal_field
  | Splat => GNT N_expr_value_struct_literal_splat
  end.

Definition bits (ks : list tkind) : N := fold_right (fun k m => N.lor (bit k) m) 0%N ks.

(** What may not stand behind a category: it would be taken as part of it. *)
Definition ty_closed : N := bits [KDoubleColon; KLeftAngle; KLeftParen; KThinArrow].
Definition ty_follow : N := N.lor (bit KPlus) ty_closed.
Definition bound_first : N := Eval vm_compute in firstg (GNT N_trait_bound).
Definition where_first : N := Eval vm_compute in firstg (GNT N_where_clause_item).
Definition expr_follow : N := Eval vm_compute in
  N.lor (N.lor (firstg (GNT N_expression_infix_or_postfix)) (firstg (GNT N_expression)))
    (N.lor ty_follow (bits [KDoubleColon; KBang; KLeftCurly; KElse; KAt; KMut])).
(** The same without the brace. *)
Definition expr_follow_brace : N := Eval vm_compute in N.ldiff expr_follow (bit KLeftCurly).
Definition expr_mask (b : bool) : N := if b then expr_follow_brace else expr_follow.
Definition tmask (t : back) : N :=
  match t with
  | AtEnd => bit KElse
  | AtField => bit KDoubleColon
  | AtPath b => if b then bits [KDoubleColon; KBang] else bits [KDoubleColon; KBang; KLeftCurly]
  | AtType o => if o then ty_follow else ty_closed
  | AtRest b => expr_mask b
  end.
(** And of something an item may start with. *)
Definition hmask (h : front) : N := match h with Called => bit KSemicolon | _ => 0%N end.
Definition header_follow : N := N.lor where_first (N.lor ty_follow (N.lor bound_first (bits [KWhere; KPlus; KLifetime; KComma]))).
Definition pattern_follow : N := bits [KDoubleColon; KDoublePeriod; KTriplePeriod; KDoublePeriodEquals; KLeftCurly; KBang; KLeftParen; KAt].

Fixpoint fmask (c : cat) : N :=
  match c with
  | Name | Member | Lifetime | Str | Attribute | TyVariadic | Hrtb | Generics | BraceFields | TupleFields | Item | MacroCall
  | MacroItem | InnerAttribute | Rename | TraitFnBody | Args | TraitArgs | ExternArgs
  | TraitMember | ImplMember | ExternMember | CharLit | ByteLit | ByteStr | NumLit | PatternTuple | PatternNumber
  | RangeOp | Block => 0%N
  | With _ c => fmask c
  | Path | PathedIdent | RangeEnd => bit KDoubleColon
  | UseTree => bits [KAs; KDoubleColon]
  | Variant | VariantBody => expr_follow
  | Assigned r => expr_mask (braced r)
  | FnHeader | TraitFnHeader => header_follow
  | SelfArg c => if c then 0%N else N.lor (bits [KComma; KColon]) ty_follow
  | Arg | TraitArg | ExternArg | ImplTarget => ty_follow
  | ImplSubject => N.lor (bit KFor) ty_follow
  | Pattern | PatternKind | TupleMember | SliceMember => pattern_follow
  | PatternIdent => bits [KDoubleColon; KLeftParen]
  | FieldPattern => N.lor (bit KColon) pattern_follow
  | PathComponent => 0%N
  | Ty | ReturnTy | TyDefault | GenericConst | FieldNamed | FieldUnnamed => ty_follow
  | TyKind o | TyNamed o | TyAdditional o | TyFunction o | TyHrtb o | Bound o | BoundTy o => if o then ty_follow else ty_closed
  | TyComponent o | TyGenerics o => if o then ty_follow else bits [KLeftAngle; KLeftParen; KThinArrow]
  | AsNamed => ty_follow
  | TyMember => N.lor ty_follow (N.lor bound_first (bits [KEquals; KColon]))
  | TyArg => N.lor (bits [KEquals; KColon]) ty_follow
  | RefKind => bits [KLifetime; KMut]
  | Qualifiers => bits [KDefault; KConst; KUnsafe; KAsync; KExtern; KString; KStringRaw]
  | Bounds | BoundsDecl => N.lor ty_follow bound_first
  | LifeBounds => bits [KPlus; KLifetime]
  | GenericLifetime => bits [KPlus; KLifetime; KColon]
  | GenericType => N.lor ty_follow (N.lor bound_first (bits [KEquals; KColon]))
  | WhereItem => N.lor ty_follow (N.lor bound_first (bits [KPlus; KLifetime]))
  | Wheres => N.lor where_first (N.lor ty_follow (N.lor bound_first (bits [KPlus; KLifetime; KComma])))
  | Vis p => if p then 0%N else bit KLeftParen
  | Stmts _ | Arms _ | Label => 0%N
  | Expr b => expr_mask b
  | Chain _ t | Operand _ t | Atom _ t => tmask t
  | PrefixOp => bit KMut
  | If => bit KElse
  | Arm b => if b then 0%N else expr_follow
  | Guard | FieldInit | Splat => expr_follow
  | LetTy | ClosureArgTy => ty_follow
  | ClosureArg => N.lor (bit KColon) (N.lor pattern_follow ty_follow)
  end.

Section Follow.
  Variable toks : list token.

  (** Behind a path component: no turbofish. *)
  Definition no_turbofish (q : point) : Prop :=
    clear toks (bit KDoubleColon) q \/ exists r, takes toks q (Sym KDoubleColon) r /\ clear toks (bit KLeftAngle) r.

  Fixpoint follow (c : cat) (q : point) : Prop :=
    match c with PathComponent => no_turbofish q | With _ c => follow c q | c => clear toks (fmask c) q end.
End Follow.

(** What looks like a name is followed by something of [m]. *)
Definition apart_in (m : N) (ps : list piece) : Prop :=
  match ps with
  | (Sym k | Word k _) :: b :: _ => member_kind k = true -> begins m [b]
  | _ => True
  end.

(** It is not followed by [=] or [:]. *)
Definition unequal : N := N.ldiff everything (bits [KEquals; KColon]).
Notation apart := (apart_in unequal).

(** A parser fails on the spelling. *)
Definition rejected (l : place) (x : g) (F : N) (ps : list piece) : Prop :=
  forall toks p q, reads toks p ps q -> clear toks F q -> exists s, forall e, sem toks (amb l) x e p (SFail s).

(** Further facts about a spelling. *)
Definition extra (l : place) (c : cat) (ps : list piece) : Prop :=
  match c with
  | Item => begins (N.ldiff (firstg (GNT N_item)) (bits [KHash; KDocCommentInnerLine; KDocCommentInnerBlock])) ps
  | Name | Member => apart_in 0 ps
  | Ty | TyKind _ | TyNamed _ | TyComponent _ | TyFunction _ => apart ps
  | Qualifiers => apart ps /\
      match ps with
      | Sym KConst :: r => begins (bits [KUnsafe; KAsync; KExtern]) r
      | Sym KExtern :: r => r = [] \/ exists k x, r = [Word k x] /\ string_kind k = true
      | [] | Sym _ :: _ => True
      | _ => False
      end
  | Str => exists k x, ps = [Word k x] /\ string_kind k = true
  | PathComponent | PathedIdent => apart_in (bit KDoubleColon) ps
  | Vis _ => ps = [Sym KCrate] \/ begins (bit KPub) ps
  | InnerAttribute => rejected l (GNT N_attribute) 0 ps
  | Arg | TraitArg => rejected l (GNT N_self_argument) 0 ps
  | FnHeader => rejected l (GNT N_p_const) 0 ps /\ rejected l (GNT N_extern_crate) 0 ps /\
      rejected l (GNT N_extern_block) 0 ps /\ rejected l (GNT N_impl_const) 0 ps
  | MacroCall => forall n, In n [N_pattern_slice_subslice; N_pattern_name; N_pattern_range_exclusive; N_pattern_range_inclusive; N_pattern_struct] ->
      rejected l (GNT n) 0 ps
  | Pattern => starts_with KSelfIdent ps = false /\
      forall n, In n [N_self_argument; N_pattern_slice_subslice] -> rejected l (GNT n) pattern_follow ps
  | PatternKind => starts_with KSelfIdent ps = false /\
      forall n, In n [N_self_argument; N_pattern_slice_subslice; N_pattern_name] -> rejected l (GNT n) pattern_follow ps
  | RangeEnd => starts_with KSelfIdent ps = false /\
      forall n, In n [N_self_argument; N_pattern_slice_subslice; N_pattern_name] -> rejected l (GNT n) (bits [KDoubleColon; KAt]) ps
  | PatternIdent => starts_with KSelfIdent ps = false /\
      (forall n, In n [N_self_argument; N_pattern_slice_subslice; N_pattern_name; N_pattern_range_exclusive; N_pattern_range_inclusive;
         N_pattern_struct; N_pattern_macro_call] -> rejected l (GNT n) pattern_follow ps) /\
      rejected l (GNT N_pattern_struct_field_long) (bits [KColon; KDoubleColon]) ps
  | Atom h t => h <> Barred -> rejected l (GNT N_item) (N.lor (hmask h) (tmask t)) ps
  | With _ (Atom h t) => rejected l (attributed "OperatorPrefix" (GNT N_operator_prefix)) 0 ps /\
      (h <> Barred -> rejected l (attributed "Item" (GNT N_item)) (N.lor (hmask h) (tmask t)) ps)
  | With _ PrefixOp => rejected l (attributed "Item" (GNT N_item)) 0 ps
  | _ => True
  end.

Lemma begins_one m b ps : begins m (b :: ps) -> begins m [b].
Proof. now destruct b. Qed.

Lemma apart_cons m pc ps : begins m ps -> apart_in m (pc :: ps).
Proof. destruct ps as [|b ps]; [now destruct pc|]. intros B. destruct pc; try exact I; intros _; eapply begins_one; exact B. Qed.

Lemma apart_app m a b : apart_in m a -> (a = [] -> apart_in m b) -> begins m b -> apart_in m (a ++ b).
Proof.
  destruct a as [|x [|y a]]; intros A E B; [now apply E| |].
  - now apply apart_cons.
  - exact A.
Qed.

Lemma apart_one m pc : apart_in m [pc].
Proof. now destruct pc. Qed.

Lemma apart_sub m m' ps : apart_in m ps -> subset m m' = true -> apart_in m' ps.
Proof.
  intros A S. destruct ps as [|x [|y ps]]; [exact I|apply apart_one|].
  destruct x; try exact I; cbn [apart_in] in *; intros K; (eapply begins_sub; [exact (A K)|exact S]).
Qed.

Definition names_mask : N := Eval vm_compute in firstg (GNT N_path_component).

Lemma names_all k : member_kind k = true -> N.land (bit k) names_mask = bit k.
Proof. intros K. destruct k; try discriminate K; vm_compute; reflexivity. Qed.

Lemma bit_nonzero k : bit k <> 0%N.
Proof. destruct k; vm_compute; discriminate. Qed.

Lemma apart_begins n m ps : begins m ps -> N.land m names_mask = 0%N -> apart_in n ps.
Proof.
  intros B D. destruct ps as [|pc [|b ps]]; [exact I|apply apart_one|].
  assert (X : forall k, subset (bit k) m = true -> member_kind k = true -> False).
  { intros k S K. apply (bit_nonzero k). rewrite <- (names_all k K). unfold subset in S. apply N.eqb_eq in S. rewrite <- S.
    rewrite <- N.land_assoc, D. apply N.land_0_r. }
  destruct pc; cbn [begins pbit] in B; cbn [apart_in]; try exact I; intros K; exfalso; eapply X; eauto.
Qed.

(** The parser follows the rules for [ps]. *)
Record good (l : place) (c : cat) (ps : list piece) (v : val) : Prop := mkGood {
  g_begins : begins (firstg (gram c)) ps;
  g_null : ps = [] -> nullg (gram c) = true;
  g_solid : is_whitespace v = false;
  g_extra : extra l c ps;
  g_parses : forall toks, parses toks (amb l) (gram c) (follow toks c) ps v }.

Definition goodo (l : place) (c : cat) (ps : list piece) (v : val) : Prop :=
  (ps = [] /\ v = VNone) \/ (exists w, v = VSome w /\ good l c ps w).

Definition goods (l : place) (c : cat) (ts : list text) : Prop := Forall (fun t => good l c (fst t) (snd t)) ts.

Section Uses.
  Variable toks : list token.
  Variable l : place.

  Lemma good_sem c ps v p q : good l c ps v -> reads toks p ps q -> follow toks c q ->
    exists w, (forall e, sem toks (amb l) (gram c) e p (SOk q w)) /\ outline w = v.
  Proof. intros G. apply (g_parses _ _ _ _ G). Qed.

  Lemma good_nonempty c ps v : good l c ps v -> nullg (gram c) = false -> ps <> [].
  Proof. intros G N ->. rewrite (g_null _ _ _ _ G eq_refl) in N. discriminate. Qed.

  Lemma good_others c ps v p q : good l c ps v -> reads toks p ps q -> nullg (gram c) = false ->
    clear toks (others (firstg (gram c))) p.
  Proof. intros G R N. eapply begins_others; [apply (g_begins _ _ _ _ G)|eapply good_nonempty; eauto|exact R]. Qed.

  Lemma good_clear c ps v p q F : good l c ps v -> reads toks p ps q -> nullg (gram c) = false ->
    N.land F (opened (firstg (gram c))) = 0%N -> clear toks F p.
  Proof. intros G R N D. eapply begins_clear; [apply (g_begins _ _ _ _ G)|eapply good_nonempty; eauto|exact R|exact D]. Qed.

  Lemma good_clear0 c ps v p q F : good l c ps v -> reads toks p ps q ->
    N.land F (opened (firstg (gram c))) = 0%N -> clear toks F q -> clear toks F p.
  Proof. intros G R D C. eapply begins_clear0; [apply (g_begins _ _ _ _ G)|exact R|exact D|exact C]. Qed.

  Lemma goodo_begins c ps v : goodo l c ps v -> begins (firstg (gram c)) ps.
  Proof. intros [[-> _]|(w & _ & G)]; [exact I|apply (g_begins _ _ _ _ G)]. Qed.

  Lemma goodo_solid c ps v : goodo l c ps v -> is_whitespace v = false.
  Proof. intros [[_ ->]|(w & -> & G)]; reflexivity. Qed.

  Lemma goodo_sem c ps v p q : goodo l c ps v -> nullg (gram c) = false -> reads toks p ps q ->
    follow toks c q -> clear toks (firstg (gram c)) q ->
    exists w, (forall e, sem toks (amb l) (GOpt (gram c)) e p (SOk q w)) /\ outline w = v.
  Proof.
    intros [[-> ->]|(w & -> & G)] N R F C.
    - cbn in R. subst q. exists VNone. split; [|reflexivity]. intros e. eapply sem_opt_none.
      eapply sem_clear; [exact C|apply subset_refl|exact N].
    - destruct (good_sem c ps w p q G R F) as (u & HS & O). exists (VSome u). split; [|cbn [outline]; now rewrite O].
      intros e. apply sem_opt_some, HS.
  Qed.

  Lemma goodo_clear c ps v p q F : goodo l c ps v -> reads toks p ps q ->
    N.land F (opened (firstg (gram c))) = 0%N -> clear toks F q -> clear toks F p.
  Proof. intros G R D C. eapply begins_clear0; [eapply goodo_begins; exact G|exact R|exact D|exact C]. Qed.

  Lemma goods_begins c ts : goods l c ts -> Forall (begins (firstg (gram c))) (spelled ts).
  Proof. intros H. apply Forall_map. eapply Forall_impl; [|exact H]. intros t G. apply (g_begins _ _ _ _ G). Qed.

  Lemma goods_nonempty c ts : goods l c ts -> nullg (gram c) = false -> Forall (fun ps => ps <> []) (spelled ts).
  Proof. intros H N. apply Forall_map. eapply Forall_impl; [|exact H]. intros t G. exact (good_nonempty _ _ _ G N). Qed.

  Lemma goods_clear c ts sep tr p q F : goods l c ts -> nullg (gram c) = false -> reads toks p (separated sep (spelled ts) tr) q ->
    N.land F (opened (firstg (gram c))) = 0%N -> clear toks F q -> clear toks F p.
  Proof.
    intros G N R D C. eapply begins_clear0; [apply begins_separated; [eapply goods_begins; eauto|eapply goods_nonempty; eauto]|exact R|exact D|exact C].
  Qed.

  Lemma goods_clear1 c t ts sep tr p q F : goods l c (t :: ts) -> nullg (gram c) = false ->
    reads toks p (separated sep (spelled (t :: ts)) tr) q -> N.land F (opened (firstg (gram c))) = 0%N -> clear toks F p.
  Proof.
    intros G N R D. eapply begins_clear; [apply begins_separated; [eapply goods_begins; eauto|eapply goods_nonempty; eauto]| |exact R|exact D].
    inversion_clear G. pose proof (good_nonempty _ _ _ H N). destruct ts; cbn [spelled map separated]; destruct (fst t); cbn; congruence.
  Qed.

  Lemma goods_separated_begins c ts sep tr m : goods l c ts -> nullg (gram c) = false -> subset (firstg (gram c)) m = true ->
    begins m (separated sep (spelled ts) tr).
  Proof.
    intros G N S. eapply begins_sub; [apply begins_separated; [eapply goods_begins; eauto|eapply goods_nonempty; eauto]|exact S].
  Qed.

  Lemma goods_separated_nonempty c ts sep tr : goods l c ts -> nullg (gram c) = false -> ts <> [] ->
    separated sep (spelled ts) tr <> [].
  Proof.
    intros G N NE E. destruct ts as [|t ts]; [congruence|]. inversion_clear G. pose proof (good_nonempty _ _ _ H N) as X.
    destruct ts; cbn [spelled map separated] in E; apply app_eq_nil in E as [E _]; congruence.
  Qed.

  Lemma good_extra c ps v : good l c ps v -> extra l c ps.
  Proof. intros G. apply (g_extra _ _ _ _ G). Qed.

  Lemma apart_separated m c ts sep tr : goods l c ts -> (forall ps, extra l c ps -> apart_in m ps) -> nullg (gram c) = false ->
    begins m [Sym sep] -> apart_in m (separated sep (spelled ts) tr).
  Proof.
    intros G E N B. destruct ts as [|t ts]; [exact I|]. inversion_clear G.
    pose proof (good_nonempty _ _ _ H N) as NE. pose proof (E _ (good_extra _ _ _ H)) as A.
    destruct ts; cbn [spelled map separated]; apply apart_app; auto; try (intros; congruence).
    destruct tr; [exact B|exact I].
  Qed.

  Lemma apart_separated_last m c c' ts ps v sep tr : goods l c ts -> good l c' ps v -> (forall qs, extra l c qs -> apart_in m qs) ->
    (forall qs, extra l c' qs -> apart_in m qs) -> nullg (gram c) = false -> nullg (gram c') = false ->
    begins m [Sym sep] -> apart_in m (separated sep (spelled ts ++ [ps]) tr).
  Proof.
    intros G G' E E' N N' B. destruct ts as [|t ts].
    - pose proof (good_nonempty _ _ _ G' N') as NE. pose proof (E' _ (good_extra _ _ _ G')) as A.
      cbn [spelled map app separated]. apply apart_app; auto; try (intros; congruence). destruct tr; [exact B|exact I].
    - inversion_clear G. pose proof (good_nonempty _ _ _ H N) as NE. pose proof (E _ (good_extra _ _ _ H)) as A.
      cbn [spelled map app]. destruct ts; cbn [map app separated]; apply apart_app; auto; intros; congruence.
  Qed.

  Lemma begins_separated_last c c' ts ps v sep tr m : goods l c ts -> good l c' ps v -> nullg (gram c) = false -> nullg (gram c') = false ->
    subset (firstg (gram c)) m = true -> subset (firstg (gram c')) m = true ->
    begins m (separated sep (spelled ts ++ [ps]) tr) /\ separated sep (spelled ts ++ [ps]) tr <> [].
  Proof.
    intros G G' N N' S S'. destruct ts as [|t ts].
    - pose proof (good_nonempty _ _ _ G' N') as NE. pose proof (begins_sub _ _ _ (g_begins _ _ _ _ G') S') as B.
      cbn [spelled map app separated]. split; [apply begins_app; [exact B|congruence]|]. destruct ps; [congruence|discriminate].
    - inversion_clear G. pose proof (good_nonempty _ _ _ H N) as NE. pose proof (begins_sub _ _ _ (g_begins _ _ _ _ H) S) as B.
      cbn [spelled map app]. destruct ts; cbn [map app separated]; (split; [apply begins_app; [exact B|congruence]|]);
        destruct (fst t); try congruence; discriminate.
  Qed.

  (** ** Optional symbols *)
  Lemma flag_clear b k p q F : reads toks p (flag b k) q -> N.land F (could_tbl k) = 0%N -> clear toks F q -> clear toks F p.
  Proof.
    destruct b; cbn [flag reads]; [|now intros ->]. intros (r & T & _) D _. eapply clear_takes; [exact T|exact D].
  Qed.

  Lemma flag_sem b k p q : reads toks p (flag b k) q -> clear toks (bit k) q ->
    exists v, (forall e err a, sem toks a (GOpt (GTok (MK k) err)) e p (SOk q v)) /\ outline v = mark b.
  Proof.
    destruct b; cbn [flag reads mark].
    - intros (r & (x & G) & <-) _. exists (VSome (VExt x)). split; [|reflexivity].
      intros e err a. apply sem_opt_some, sem_gets, G.
    - intros <- C. exists VNone. split; [|reflexivity]. intros e err a. eapply sem_opt_none.
      eapply sem_clear; [exact C|apply subset_refl|reflexivity].
  Qed.

  Lemma flag_ext_sem b k p q : reads toks p (flag b k) q -> clear toks (bit k) q ->
    exists v, (forall e err a, sem toks a (GOpt (GExt (GTok (MK k) err))) e p (SOk q v)) /\ outline v = mark b.
  Proof.
    destruct b; cbn [flag reads mark].
    - intros (r & (x & G) & <-) _. eexists. split.
      + intros e err a. apply sem_opt_some. eapply sem_ext. apply sem_gets, G.
      + reflexivity.
    - intros <- C. exists VNone. split; [|reflexivity]. intros e err a. eapply sem_opt_none. apply sem_ext_fail.
      eapply sem_clear; [exact C|apply subset_refl|reflexivity].
  Qed.

  (** ** Lists *)
  Definition tagged : Type := (cat * text)%type.
  Definition tag (c : cat) : list text -> list tagged := map (pair c).
  Definition t_spell (x : tagged) : list piece := fst (snd x).
  Definition t_ast (x : tagged) : val := snd (snd x).

  Definition all_good (f : g) (xs : list tagged) : Prop :=
    forall x, In x xs -> good l (fst x) (t_spell x) (t_ast x) /\ gram (fst x) = f.

  Lemma all_good_elems f xs : all_good f xs -> elems toks t_ast t_spell (fun x => follow toks (fst x)) (amb l) f xs.
  Proof. intros A x I. destruct (A x I) as [G <-]. split; [apply (g_parses _ _ _ _ G)|apply (g_solid _ _ _ _ G)]. Qed.

  Lemma tag_good c ts : goods l c ts -> all_good (gram c) (tag c ts).
  Proof.
    intros G x I. unfold tag in I. apply in_map_iff in I as (t & <- & I). split; [|reflexivity].
    unfold goods in G. rewrite Forall_forall in G. now apply G.
  Qed.

  Lemma tag_last_good c c' ts ps v : goods l c ts -> good l c' ps v -> gram c' = gram c ->
    all_good (gram c) (tag c ts ++ [(c', (ps, v))]).
  Proof. intros G H E x I. apply in_app_or in I as [I|[<-|[]]]; [eapply tag_good; eauto|]. split; [exact H|exact E]. Qed.

  Lemma tag_spell c ts : map t_spell (tag c ts) = spelled ts.
  Proof. unfold tag. rewrite map_map. reflexivity. Qed.
  Lemma tag_ast c ts : map t_ast (tag c ts) = asts ts.
  Proof. unfold tag. rewrite map_map. reflexivity. Qed.

  (** The category is not [PathComponent]. *)
  Definition plain (c : cat) : Prop := forall q, clear toks (fmask c) q -> follow toks c q.

  Lemma tag_spaced c M sep tr ts : plain c -> N.land (fmask c) (could_tbl sep) = 0%N -> subset (fmask c) M = true ->
    spaced toks t_spell (fun x => follow toks (fst x)) M sep tr (tag c ts).
  Proof.
    intros P D S. induction ts as [|t ts IH]; [exact I|]. destruct ts as [|u ts]; cbn [spaced tag map].
    - destruct tr; [intros p q T; apply P; eapply clear_takes; eauto|intros q C; apply P; eapply clear_subset; eauto].
    - split; [|exact IH]. intros p q s T _. apply P. eapply clear_takes; eauto.
  Qed.

  Lemma tag_last_spaced c c' M sep tr ts ps v : plain c -> plain c' -> N.land (fmask c) (could_tbl sep) = 0%N ->
    (tr = true -> N.land (fmask c') (could_tbl sep) = 0%N) -> subset (fmask c') M = true ->
    spaced toks t_spell (fun x => follow toks (fst x)) M sep tr (tag c ts ++ [(c', (ps, v))]).
  Proof.
    intros P P' D D' S. induction ts as [|t ts IH].
    - cbn [spaced tag map app]. destruct tr; [intros p q T; apply P'; eapply clear_takes; [exact T|auto]|intros q C; apply P'; eapply clear_subset; eauto].
    - cbn [tag map app]. destruct ts as [|u ts]; cbn [spaced tag map app] in *.
      + split; [|exact IH]. intros p q s T _. apply P. eapply clear_takes; eauto.
      + split; [|exact IH]. intros p q s T _. apply P. eapply clear_takes; eauto.
  Qed.

  Definition list_mask (tr : bool) (c : cat) (sep : tkind) : N :=
    N.lor (if tr then firstg (gram c) else 0%N) (N.lor (bit sep) (fmask c)).

  Lemma list_mask_first tr c sep : tr = true -> subset (firstg (gram c)) (list_mask tr c sep) = true.
  Proof. intros ->. apply subset_lor_l, subset_refl. Qed.
  Lemma list_mask_sep tr c sep : subset (bit sep) (list_mask tr c sep) = true.
  Proof. apply subset_lor_r, subset_lor_l, subset_refl. Qed.
  Lemma list_mask_fol tr c sep : subset (fmask c) (list_mask tr c sep) = true.
  Proof. apply subset_lor_r, subset_lor_r, subset_refl. Qed.

  (** *** Elements of any categories *)
  Section Any.
    Variables (f : g) (sep : tkind) (M : N).
    Hypothesis NF : nullg f = false.
    Hypothesis SM : subset (bit sep) M = true.

    Notation spaced_ := (spaced toks t_spell (fun x => follow toks (fst x)) M sep).

    Lemma any_list xs tr p q l0 : (xs = [] \/ tr = true -> subset (firstg f) M = true) -> all_good f xs -> spaced_ tr xs ->
      reads toks p (separated sep (map t_spell xs) tr) q -> clear toks M q ->
      exists vs, (forall e err app, bval toks p e app (VList l0) ->
          sem toks (amb l) (tailed_values app (GTok (MK sep) err) f) e p (SOk q (VList (l0 ++ vs)))) /\
        outlines vs = map t_ast xs.
    Proof.
      intros FM A S R C. apply (sem_separated_app toks t_ast t_spell (fun x => follow toks (fst x)) M sep (amb l) f xs tr p q l0); auto.
      now apply all_good_elems.
    Qed.

    Lemma any_list1 xs tr p q : (tr = true -> subset (firstg f) M = true) -> xs <> [] -> all_good f xs -> spaced_ tr xs ->
      reads toks p (separated sep (map t_spell xs) tr) q -> clear toks M q ->
      exists vs, (forall e err, sem toks (amb l) (tailed1_values (GTok (MK sep) err) f) e p (SOk q (VList vs))) /\
        outlines vs = map t_ast xs.
    Proof.
      intros FM NE A S R C. destruct xs as [|x xs]; [congruence|].
      apply (sem_separated1 toks t_ast t_spell (fun x => follow toks (fst x)) M sep (amb l) f x xs tr p q); auto.
      now apply all_good_elems.
    Qed.

    Lemma any_resumed xs tr p r q : (tr = true -> subset (firstg f) M = true) -> xs <> [] -> all_good f xs -> spaced_ tr xs -> takes toks p (Sym sep) r ->
      reads toks r (separated sep (map t_spell xs) tr) q -> clear toks M q ->
      exists vs, (forall e err, sem toks (amb l) (GResume (GTok (MK sep) err) f) e p (SOk q (VList vs))) /\
        outlines vs = map t_ast xs.
    Proof.
      intros FM NE A S T R C. destruct xs as [|x xs]; [congruence|].
      apply (sem_resumed toks t_ast t_spell (fun x => follow toks (fst x)) M sep (amb l) f x xs tr p r q); auto.
      now apply all_good_elems.
    Qed.
  End Any.

  (** *** Elements of one category *)
  Section One.
    Variables (c : cat) (sep : tkind).
    Hypothesis N : nullg (gram c) = false.
    Hypothesis P : plain c.
    Hypothesis D : N.land (fmask c) (could_tbl sep) = 0%N.

    Lemma goods_list ts tr p q : goods l c ts ->
      reads toks p (separated sep (spelled ts) tr) q -> clear toks (list_mask true c sep) q ->
      exists vs, (forall e err app, bval toks p e app (VList []) ->
          sem toks (amb l) (tailed_values app (GTok (MK sep) err) (gram c)) e p (SOk q (VList vs))) /\
        outlines vs = asts ts.
    Proof.
      intros G R C. rewrite <- (tag_ast c ts). apply (any_list (gram c) sep (list_mask true c sep)) with (tr := tr) (l0 := []);
        auto using list_mask_first, list_mask_sep, tag_good.
      - apply tag_spaced; auto. apply list_mask_fol.
      - rewrite tag_spell. exact R.
    Qed.

    (** When the last element is followed by a separator, what comes next may be anything that is not an element. *)
    Lemma goods_list_trailed ts tr p q : goods l c ts -> (ts <> [] -> tr = true) ->
      reads toks p (separated sep (spelled ts) tr) q -> clear toks (N.lor (firstg (gram c)) (bit sep)) q ->
      exists vs, (forall e err app, bval toks p e app (VList []) ->
          sem toks (amb l) (tailed_values app (GTok (MK sep) err) (gram c)) e p (SOk q (VList vs))) /\
        outlines vs = asts ts.
    Proof.
      intros G TR R C. rewrite <- (tag_ast c ts). apply (any_list (gram c) sep (N.lor (firstg (gram c)) (bit sep))) with (tr := tr) (l0 := []);
        auto using tag_good.
      - apply subset_lor_r, subset_refl.
      - intros _. apply subset_lor_l, subset_refl.
      - clear - TR P D. induction ts as [|t ts IH]; [exact I|]. rewrite (TR ltac:(discriminate)) in *. clear TR. destruct ts as [|u ts]; cbn [spaced tag map].
        + intros p q T; apply P; eapply clear_takes; eauto.
        + split; [|apply IH; reflexivity]. intros p q s T _. apply P. eapply clear_takes; eauto.
      - rewrite tag_spell. exact R.
    Qed.

    Lemma goods_list_onto l0 ts tr p q : goods l c ts ->
      reads toks p (separated sep (spelled ts) tr) q -> clear toks (list_mask true c sep) q ->
      exists vs, (forall e err app, bval toks p e app (VList l0) ->
          sem toks (amb l) (tailed_values app (GTok (MK sep) err) (gram c)) e p (SOk q (VList (l0 ++ vs)))) /\
        outlines vs = asts ts.
    Proof.
      intros G R C. rewrite <- (tag_ast c ts). apply (any_list (gram c) sep (list_mask true c sep)) with (tr := tr) (l0 := l0);
        auto using list_mask_first, list_mask_sep, tag_good.
      - apply tag_spaced; auto. apply list_mask_fol.
      - rewrite tag_spell. exact R.
    Qed.

    Lemma goods_list1 ts tr p q : goods l c ts -> ts <> [] ->
      reads toks p (separated sep (spelled ts) tr) q -> clear toks (list_mask tr c sep) q ->
      exists vs, (forall e err,
          sem toks (amb l) (tailed1_values (GTok (MK sep) err) (gram c)) e p (SOk q (VList vs))) /\
        outlines vs = asts ts.
    Proof.
      intros G NE R C. rewrite <- (tag_ast c ts). apply (any_list1 (gram c) sep (list_mask tr c sep)) with (tr := tr);
        auto using list_mask_first, list_mask_sep, tag_good.
      - destruct ts; [congruence|discriminate].
      - apply tag_spaced; auto. apply list_mask_fol.
      - rewrite tag_spell. exact R.
    Qed.

    Lemma goods_resumed ts tr p r q : goods l c ts -> ts <> [] -> takes toks p (Sym sep) r ->
      reads toks r (separated sep (spelled ts) tr) q -> clear toks (list_mask tr c sep) q ->
      exists vs, (forall e err, sem toks (amb l) (GResume (GTok (MK sep) err) (gram c)) e p (SOk q (VList vs))) /\
        outlines vs = asts ts.
    Proof.
      intros G NE T R C. rewrite <- (tag_ast c ts). apply (any_resumed (gram c) sep (list_mask tr c sep)) with (tr := tr) (r := r);
        auto using list_mask_first, list_mask_sep, tag_good.
      - destruct ts; [congruence|discriminate].
      - apply tag_spaced; auto. apply list_mask_fol.
      - rewrite tag_spell. exact R.
    Qed.

    (** The last element of another category with the same grammar. *)
    Section Last.
      Variables (c' : cat).
      Hypothesis E : gram c' = gram c.
      Hypothesis P' : plain c'.

      Lemma tag_last_spell ts ps v : map t_spell (tag c ts ++ [(c', (ps, v))]) = spelled ts ++ [ps].
      Proof. rewrite map_app, tag_spell. reflexivity. Qed.
      Lemma tag_last_ast ts ps v : map t_ast (tag c ts ++ [(c', (ps, v))]) = asts ts ++ [v].
      Proof. rewrite map_app, tag_ast. reflexivity. Qed.

      Variables (ts : list text) (ps : list piece) (v : val) (tr : bool).
      Hypothesis G : goods l c ts.
      Hypothesis G' : good l c' ps v.
      Hypothesis D' : tr = true -> N.land (fmask c') (could_tbl sep) = 0%N.

      Lemma goods_list_last p q :
        reads toks p (separated sep (spelled ts ++ [ps]) tr) q -> clear toks (list_mask tr c' sep) q ->
        exists vs, (forall e err app, bval toks p e app (VList []) ->
            sem toks (amb l) (tailed_values app (GTok (MK sep) err) (gram c)) e p (SOk q (VList vs))) /\
          outlines vs = asts ts ++ [v].
      Proof.
        intros R C. rewrite <- (tag_last_ast ts ps v). pose proof (list_mask_first tr c' sep) as F. rewrite E in F.
        apply (any_list (gram c) sep (list_mask tr c' sep)) with (tr := tr) (l0 := []);
          auto using list_mask_sep, tag_last_good.
        - intros [X|X]; [now destruct (tag c ts)|auto].
        - apply tag_last_spaced; auto. apply list_mask_fol.
        - rewrite tag_last_spell. exact R.
      Qed.

      Lemma goods_list1_last p q :
        reads toks p (separated sep (spelled ts ++ [ps]) tr) q -> clear toks (list_mask tr c' sep) q ->
        exists vs, (forall e err,
            sem toks (amb l) (tailed1_values (GTok (MK sep) err) (gram c)) e p (SOk q (VList vs))) /\
          outlines vs = asts ts ++ [v].
      Proof.
        intros R C. rewrite <- (tag_last_ast ts ps v). pose proof (list_mask_first tr c' sep) as F. rewrite E in F.
        apply (any_list1 (gram c) sep (list_mask tr c' sep)) with (tr := tr);
          auto using list_mask_sep, tag_last_good.
        - now destruct (tag c ts).
        - apply tag_last_spaced; auto. apply list_mask_fol.
        - rewrite tag_last_spell. exact R.
      Qed.

      Lemma goods_resumed_last p r q : takes toks p (Sym sep) r ->
        reads toks r (separated sep (spelled ts ++ [ps]) tr) q -> clear toks (list_mask tr c' sep) q ->
        exists vs, (forall e err, sem toks (amb l) (GResume (GTok (MK sep) err) (gram c)) e p (SOk q (VList vs))) /\
          outlines vs = asts ts ++ [v].
      Proof.
        intros T R C. rewrite <- (tag_last_ast ts ps v). pose proof (list_mask_first tr c' sep) as F. rewrite E in F.
        apply (any_resumed (gram c) sep (list_mask tr c' sep)) with (tr := tr) (r := r);
          auto using list_mask_sep, tag_last_good.
        - now destruct (tag c ts).
        - apply tag_last_spaced; auto. apply list_mask_fol.
        - rewrite tag_last_spell. exact R.
      Qed.
    End Last.
  End One.

  (** *** Repetition *)
  Lemma goods_many c ts p q : goods l c ts -> nullg (gram c) = false -> plain c ->
    N.land (fmask c) (opened (firstg (gram c))) = 0%N ->
    reads toks p (concat (spelled ts)) q -> clear toks (N.lor (firstg (gram c)) (fmask c)) q ->
    exists vs, (forall e, sem toks (amb l) (GMany (gram c)) e p (SOk q (VList vs))) /\ outlines vs = asts ts.
  Proof.
    intros G N P D R C. rewrite <- (tag_ast c ts).
    apply (sem_spelled toks t_ast t_spell (fun x => follow toks (fst x)) (N.lor (firstg (gram c)) (fmask c)) (amb l) (gram c) (tag c ts) p q); auto.
    - apply subset_lor_l, subset_refl.
    - apply all_good_elems, tag_good, G.
    - intros t q' I C'. unfold tag in I. apply in_map_iff in I as (t' & <- & _). apply P. eapply clear_subset; [exact C'|].
      apply subset_lor_r, subset_refl.
    - intros t u q' s I J R'. unfold tag in I, J. apply in_map_iff in I as (t' & <- & I). apply in_map_iff in J as (u' & <- & J).
      apply P. unfold goods in G. rewrite Forall_forall in G. eapply good_clear; [apply G; exact J|exact R'|exact N|exact D].
    - rewrite flat_map_concat_map, tag_spell. exact R.
  Qed.

  Lemma goods_many_clear c ts p q F : goods l c ts -> nullg (gram c) = false -> reads toks p (concat (spelled ts)) q ->
    N.land F (opened (firstg (gram c))) = 0%N -> clear toks F q -> clear toks F p.
  Proof.
    intros G N R D C. destruct ts as [|t ts]; [cbn in R; now subst|]. cbn [spelled map concat] in R.
    apply reads_app in R as (r & R & _). inversion_clear G. eapply good_clear; eauto.
  Qed.

  (** *** Two lists behind each other *)
  Lemma separated_app sep a b tr : separated sep (a ++ b) tr =
    separated sep a (match b with [] => tr | _ => true end) ++ separated sep b tr.
  Proof.
    induction a as [|x a IH]; [reflexivity|]. destruct a as [|y a].
    - cbn [app separated]. destruct b; cbn [separated]; rewrite <- ?app_assoc; [now rewrite app_nil_r|reflexivity].
    - change (separated sep ((x :: y :: a) ++ b) tr) with (x ++ Sym sep :: separated sep ((y :: a) ++ b) tr). rewrite IH.
      cbn [separated]. rewrite <- app_assoc. reflexivity.
  Qed.

  Lemma reads_separated_app sep a b tr p q : reads toks p (separated sep (a ++ b) tr) q ->
    exists r, reads toks p (separated sep a (match b with [] => tr | _ => true end)) r /\ reads toks r (separated sep b tr) q.
  Proof. rewrite separated_app. apply reads_app. Qed.

  (** ** Path components *)
  Lemma path_spaced cs : goods l PathComponent cs ->
    spaced toks t_spell (fun x => follow toks (fst x)) (bit KDoubleColon) KDoubleColon false (tag PathComponent cs).
  Proof.
    induction cs as [|t cs IH]; [exact (fun _ => I)|]. intros G. inversion_clear G.
    destruct cs as [|u cs]; cbn [spaced tag map fst follow].
    - intros q C. left. exact C.
    - split; [|exact (IH H0)]. intros p q s T R. right. exists q. split; [exact T|].
      inversion_clear H0. eapply good_clear; [exact H1|exact R|reflexivity|vm_compute; reflexivity].
  Qed.

  Lemma path_list1 cs p q : goods l PathComponent cs -> cs <> [] ->
    reads toks p (separated KDoubleColon (spelled cs) false) q -> clear toks (bit KDoubleColon) q ->
    exists vs, (forall e err, sem toks (amb l) (tailed1_values (GTok (MK KDoubleColon) err) (GNT N_path_component)) e p (SOk q (VList vs))) /\
      outlines vs = asts cs.
  Proof.
    intros G NE R C. rewrite <- (tag_ast PathComponent cs).
    apply (any_list1 (GNT N_path_component) KDoubleColon (bit KDoubleColon)) with (tr := false); auto.
    - destruct cs; [congruence|discriminate].
    - apply (tag_good PathComponent), G.
    - now apply path_spaced.
    - rewrite tag_spell. exact R.
  Qed.

  Lemma path_resumed cs p r q : goods l PathComponent cs -> cs <> [] -> takes toks p (Sym KDoubleColon) r ->
    reads toks r (separated KDoubleColon (spelled cs) false) q -> clear toks (bit KDoubleColon) q ->
    exists vs, (forall e err, sem toks (amb l) (GResume (GTok (MK KDoubleColon) err) (GNT N_path_component)) e p (SOk q (VList vs))) /\
      outlines vs = asts cs.
  Proof.
    intros G NE T R C. rewrite <- (tag_ast PathComponent cs).
    apply (any_resumed (GNT N_path_component) KDoubleColon (bit KDoubleColon)) with (tr := false) (r := r); auto.
    - destruct cs; [congruence|discriminate].
    - apply (tag_good PathComponent), G.
    - now apply path_spaced.
    - rewrite tag_spell. exact R.
  Qed.

  (** ** What is not a name followed by [=] or [:] *)
  Lemma ident_starts k : ident_kind k = false -> N.land (firstg (GNT N_ident)) (could_tbl k) = 0%N.
  Proof. destruct k; try discriminate; intros _; vm_compute; reflexivity. Qed.

  Lemma not_named a n F ps p q : begins n ps -> ps <> [] -> forall m, apart_in m ps -> N.land F (opened m) = 0%N ->
    reads toks p ps q -> clear toks F q ->
    (exists s, forall e, sem toks a (GNT N_ident) e p (SFail s)) \/
    (exists r w, (forall e, sem toks a (GNT N_ident) e p (SOk r w)) /\ clear toks F r).
  Proof.
    intros B NE m A D R C. destruct ps as [|pc ps]; [congruence|]. cbn [reads] in R. destruct R as (r & T & R).
    assert (Y : apart_in m (pc :: ps) -> (exists k, (pc = Sym k \/ exists x, pc = Word k x) /\ ident_kind k = true) -> clear toks F r).
    { intros _ (k & E & K). destruct ps as [|b ps]; [cbn in R; now subst|].
      assert (Bb : begins m [b]) by (destruct E as [-> |(x & ->)]; exact (A (proj2 (orb_true_iff _ _) (or_introl K)))).
      cbn [reads] in R. destruct R as (s & T2 & _). eapply begins_clear with (ps := [b]) (q := s); [exact Bb|discriminate| |exact D].
      cbn [reads]. eauto. }
    destruct pc as [k|k x|n'|t]; [| | |contradiction].
    - destruct (ident_kind k) eqn:K.
      + right. destruct T as [x T]. exists r, (vident x). split; [|eapply Y; eauto].
        intros e. eapply sem_ident; [exact K|]. exact T.
      + left. exists p. intros e. eapply sem_skip; [exact T| |reflexivity]. now apply ident_starts.
    - destruct (ident_kind k) eqn:K.
      + right. exists r, (vident x). split; [|eapply Y; eauto]. intros e. eapply sem_ident; [exact K|exact T].
      + left. exists p. intros e. eapply sem_skip; [exact T| |reflexivity]. now apply ident_starts.
    - left. exists p. intros e. eapply sem_skip; [exact T|vm_compute; reflexivity|reflexivity].
  Qed.
End Uses.

(** * Tactics *)

(** Take the text apart. *)
Ltac rd :=
  repeat (
    match goal with
    | H : reads _ _ (_ ++ _) _ |- _ => apply reads_app in H; destruct H as (? & ? & ?)
    | H : reads _ _ (separated _ (spelled _ ++ spelled _) _) _ |- _ => apply reads_separated_app in H; destruct H as (? & ? & ?)
    | H : reads _ _ (separated _ (spelled _ ++ spelled _ ++ spelled _) _) _ |- _ => apply reads_separated_app in H; destruct H as (? & ? & ?)
    | H : reads _ _ (_ :: _) _ |- _ => cbn [reads] in H; destruct H as (? & ? & H)
    | H : exists r, takes _ _ _ r /\ _ |- _ => destruct H as (? & ? & H)
    | H : reads _ _ [] _ |- _ => cbn [reads] in H
    | H : @eq point _ _ |- _ => subst
    end; cbn [app] in * |-; unfold commas in * |-).

(** The tokens themselves. *)
Ltac tk :=
  repeat match goal with
  | H : takes ?t ?p (Sym ?k) ?q |- _ =>
      lazymatch goal with
      | _ : gets t p (MK k) q _ |- _ => fail
      | _ => let x := fresh "x" in let K := fresh "K" in pose proof H as K; cbn [takes] in K; destruct K as [x K]
      end
  | H : takes ?t ?p (Word ?k ?x) ?q |- _ =>
      lazymatch goal with
      | _ : gets t p (MK k) q _ |- _ => fail
      | _ => let K := fresh "K" in pose proof H as K; cbn [takes] in K
      end
  end.

Ltac compute_mask := vm_compute; reflexivity.

Lemma clear_zero toks F p : F = 0%N -> clear toks F p.
Proof. intros ->. apply N.land_0_l. Qed.

(** What does not come next. *)
Ltac clr :=
  cbn [follow];
  match goal with
  | H : clear ?t ?m ?p |- clear ?t ?m ?p => exact H
  | |- clear ?t _ ?p => apply clear_zero; compute_mask
  | H : takes ?t ?p _ _ |- clear ?t _ ?p => apply (clear_takes t p _ _ _ H); compute_mask
  | H : clear ?t _ ?p |- clear ?t _ ?p => apply (clear_subset t _ _ p H); compute_mask
  | H : no_turbofish ?t ?p |- no_turbofish ?t ?p => exact H
  | G : good ?l ?c ?ps ?v, R : reads ?t ?p ?ps ?q |- clear ?t ?F ?p =>
      first [ apply (good_clear t l c ps v p q F G R); [compute_mask|compute_mask]
            | apply (good_clear0 t l c ps v p q F G R); [compute_mask|clr] ]
  | G : goodo ?l ?c ?ps ?v, R : reads ?t ?p ?ps ?q |- clear ?t ?F ?p =>
      apply (goodo_clear t l c ps v p q F G R); [compute_mask|clr]
  | R : reads ?t ?p (flag ?b ?k) ?q |- clear ?t ?F ?p =>
      apply (flag_clear t b k p q F R); [compute_mask|clr]
  | B : begins ?m ?ps, NE : ?ps <> [], R : reads ?t ?p ?ps ?q |- clear ?t ?F ?p =>
      apply (begins_clear t m ps p q F B NE R); compute_mask
  | G : goods ?l ?c (?x :: ?ts), R : reads ?t ?p (separated ?sep (spelled (?x :: ?ts)) ?tr) ?q |- clear ?t ?F ?p =>
      apply (goods_clear1 t l c x ts sep tr p q F G); [compute_mask|exact R|compute_mask]
  | G : goods ?l ?c ?ts, R : reads ?t ?p (separated ?sep (spelled ?ts) ?tr) ?q |- clear ?t ?F ?p =>
      apply (goods_clear t l c ts sep tr p q F G); [compute_mask|exact R|compute_mask|clr]
  | G : goods ?l ?c ?ts, R : reads ?t ?p (concat (spelled ?ts)) ?q |- clear ?t ?F ?p =>
      apply (goods_many_clear t l c ts p q F G); [compute_mask|exact R|compute_mask|clr]
  | B : begins ?m ?ps, R : reads ?t ?p ?ps ?q |- clear ?t ?F ?p =>
      apply (begins_clear0 t m ps p q F B R); [compute_mask|clr]
  end.

Ltac plain := let H := fresh in intros ? H; exact H.

(** What the parser does with the parts. *)
Ltac use_one :=
  match goal with
  | G : good ?l ?c ?ps ?v, R : reads ?t ?p ?ps ?q |- _ =>
      lazymatch goal with
      | _ : forall e, sem t (amb l) (gram c) e p (SOk q _) |- _ => fail
      | _ => let w := fresh "w" in let HS := fresh "HS" in let O := fresh "O" in
          destruct (good_sem t l c ps v p q G R) as (w & HS & O); [clr|]
      end
  | G : goodo ?l ?c ?ps ?v, R : reads ?t ?p ?ps ?q |- _ =>
      lazymatch goal with
      | _ : forall e, sem t (amb l) (GOpt (gram c)) e p (SOk q _) |- _ => fail
      | _ => let w := fresh "w" in let HS := fresh "HS" in let O := fresh "O" in
          destruct (goodo_sem t l c ps v p q G) as (w & HS & O); [reflexivity|exact R|clr|clr|]
      end
  | R : reads ?t ?p (flag ?b ?k) ?q |- _ =>
      lazymatch goal with
      | _ : forall e err a, sem t a (GOpt (GTok (MK k) err)) e p (SOk q _) |- _ => fail
      | _ => let w := fresh "w" in let HS := fresh "HS" in let O := fresh "O" in let w' := fresh "w" in let HS' := fresh "HS" in let O' := fresh "O" in
          destruct (flag_sem t b k p q R) as (w & HS & O); [clr|];
          destruct (flag_ext_sem t b k p q R) as (w' & HS' & O'); [clr|]
      end
  | G : goods ?l ?c ?ts, R : reads ?t ?p (separated ?sep (spelled ?ts) ?tr) ?q, NE : ?ts <> [] |- _ =>
      lazymatch goal with
      | _ : forall e err, sem t (amb l) (tailed1_values (GTok (MK sep) err) (gram c)) e p (SOk q _) |- _ => fail
      | _ => let w := fresh "w" in let HS := fresh "HS" in let O := fresh "O" in
          let D := fresh "D" in assert (D : N.land (fmask c) (could_tbl sep) = 0%N) by compute_mask;
          destruct (goods_list1 t l c sep eq_refl (fun _ H => H) D ts tr p q G NE R) as (w & HS & O); [clr|]; clear D
      end
  | G : goods ?l ?c ?ts, R : reads ?t ?p (separated ?sep (spelled ?ts) ?tr) ?q |- _ =>
      lazymatch goal with
      | _ : forall e err app, bval t p e app _ -> sem t (amb l) (tailed_values app (GTok (MK sep) err) (gram c)) e p (SOk q _) |- _ => fail
      | _ => let w := fresh "w" in let HS := fresh "HS" in let O := fresh "O" in
          let D := fresh "D" in assert (D : N.land (fmask c) (could_tbl sep) = 0%N) by compute_mask;
          destruct (goods_list t l c sep eq_refl (fun _ H => H) D ts tr p q G R) as (w & HS & O); [clr|]; clear D
      end
  | G : goods ?l ?c ?ts, R : reads ?t ?p (concat (spelled ?ts)) ?q |- _ =>
      lazymatch goal with
      | _ : forall e, sem t (amb l) (GMany (gram c)) e p (SOk q _) |- _ => fail
      | _ => let w := fresh "w" in let HS := fresh "HS" in let O := fresh "O" in
          destruct (goods_many t l c ts p q G) as (w & HS & O);
          [reflexivity|plain|compute_mask|exact R|clr|]
      end
  end.
Ltac use_all := repeat use_one.

(** Follow the grammar. *)
Ltac known :=
  lazymatch goal with
  | |- sem ?t ?a ?x ?e ?p (SOk ?q ?v) =>
      match goal with
      | H : forall e, sem t a x e p (SOk _ _) |- _ => exact (H e)
      | _ =>
        let y := eval hnf in x in
        lazymatch y with
        | GTok (MK ?k) ?err =>
            match goal with H : gets t p (MK k) _ _ |- _ => exact (sem_gets t a (MK k) err e p _ _ H) end
        | GOpt ?z =>
            match goal with
            | H : forall e, sem t a z e p (SOk _ _) |- _ => exact (sem_opt_some _ _ _ _ _ _ _ (H e))
            | _ =>
              let z' := eval hnf in z in
              lazymatch z' with
              | GTok (MK ?k) ?err =>
                  match goal with
                  | H : forall e err a, sem t a (GOpt (GTok (MK k) err)) e p _ |- _ => exact (H e err a)
                  | H : gets t p (MK k) _ _ |- _ => exact (sem_opt_some _ _ _ _ _ _ _ (sem_gets t a (MK k) err e p _ _ H))
                  end
              | GExt ?w =>
                  let w' := eval hnf in w in
                  lazymatch w' with
                  | GTok (MK ?k) ?err =>
                    match goal with
                    | H : forall e err a, sem t a (GOpt (GExt (GTok (MK k) err))) e p _ |- _ => exact (H e err a)
                    | H : gets t p (MK k) _ _ |- _ =>
                        exact (sem_opt_some _ _ _ _ _ _ _ (sem_ext _ _ _ _ _ _ _ (sem_gets t a (MK k) err e p _ _ H)))
                    end
                  end
              end
            end
        | GAmb _ _ => apply sem_amb; known
        | GSeq [(_, GTailed ?app ?sep ?f)] _ =>
            let s := eval hnf in sep in
            lazymatch s with
            | GTok (MK ?k) ?err =>
              match goal with
              | H : forall e err app, bval t p e app _ -> sem t a (tailed_values app (GTok (MK k) err) f) e p _ |- _ =>
                  eapply (H e err app); build
              end
            end
        | GSeq [(_, GTailed1 ?sep ?f)] _ =>
            let s := eval hnf in sep in
            lazymatch s with
            | GTok (MK ?k) ?err =>
              match goal with
              | H : forall e err, sem t a (tailed1_values (GTok (MK k) err) f) e p _ |- _ => exact (H e err)
              end
            end
        | GResume ?sep ?f =>
            let s := eval hnf in sep in
            lazymatch s with
            | GTok (MK ?k) ?err =>
              match goal with
              | H : forall e err, sem t a (GResume (GTok (MK k) err) f) e p _ |- _ => exact (H e err)
              end
            end
        end
      end
  end.

(** The parser does not start here. *)
Ltac cannot :=
  match goal with
  | |- sem ?t ?a ?x ?e ?p _ => apply (sem_clear t a x e p (firstg x)); [clr|apply subset_refl|reflexivity]
  end.

(** The parser starts but fails. *)
Ltac fpart :=
  lazymatch goal with
  | |- sem _ _ GPoint _ _ _ => apply sem_point
  | |- sem _ _ (GOpt _) _ _ _ => first [known|eapply sem_opt_none; cannot]
  | |- _ => known
  end.
Ltac fstep :=
  match goal with
  | H : forall e, sem ?t ?a ?x e ?p (SFail _) |- sem ?t ?a ?x ?e ?p (SFail _) => exact (H e)
  | |- sem _ _ _ _ _ (SFail _) => cannot
  | |- sem _ _ (GNT _) _ _ (SFail _) => enter
  | |- sem _ _ (GSeq _ _) _ _ (SFail _) => apply sem_seq
  | |- sem _ _ (attributed _ _) _ _ (SFail _) => unfold attributed; apply sem_seq
  | |- sem _ _ (GExt _) _ _ (SFail _) => eapply sem_ext_fail
  | |- sem _ _ (GMapErr _ _) _ _ (SFail _) => eapply sem_maperr
  | |- sem _ _ (GAmb _ _) _ _ (SFail _) => apply sem_amb
  | |- sem _ _ (GAlt _) _ _ (SFail _) => apply sem_alt
  | |- alts _ _ _ _ [_] _ => apply alts_last
  | |- alts _ _ _ _ (_ :: _) _ => eapply alts_skip
  | |- sems _ _ (_ :: _) _ _ _ (SFail _) =>
      first [ eapply sems_cons; [fpart|cbn [bind_pat]; reflexivity|]
            | eapply sems_fail ]
  end.
Ltac fails := solve [repeat fstep].

Lemma sems_cons_pair toks a pt x steps b e p q v w e' r : sem toks a x e p (SOk q (VPair v w)) -> bind_pat pt (VPair v w) e = Some e' ->
  sems toks a steps b e' q r -> sems toks a ((pt, x) :: steps) b e p r.
Proof. apply sems_cons. Qed.
Ltac step :=
  first
  [ known
  | match goal with
    | |- sem _ _ GPoint _ _ _ => apply sem_point
    | |- sem _ _ (GNT _) _ _ _ => enter
    | |- sem _ _ (GSeq _ _) _ _ _ => apply sem_seq
    | |- sem _ _ (attributed _ _) _ _ _ => unfold attributed; apply sem_seq
    | |- sems _ _ [] _ _ _ (SOk _ _) => seq_done
    | |- sems _ _ ((PPair _ _, _) :: _) _ _ _ _ => eapply sems_cons_pair; [|cbn [bind_pat]; reflexivity|]
    | |- sems _ _ (_ :: _) _ _ _ _ => eapply sems_cons; [|cbn [bind_pat]; reflexivity|]
    | |- sem _ _ (GOpt _) _ _ _ => first [eapply sem_opt_none; first [cannot|fails]|eapply sem_opt_some]
    | |- sem _ _ (GResume _ _) _ _ _ => eapply sem_resume_none; cannot
    | |- sem _ _ (GExt _) _ _ _ => eapply sem_ext
    | |- sem _ _ (GMapErr _ _) _ _ _ => eapply sem_maperr
    | |- sem _ _ (GAmb _ _) _ _ _ => apply sem_amb
    | |- sem _ _ (GIfMax _ _) _ _ _ => apply sem_ifmax; [assumption|]
    | |- sem _ _ (GIfAmb _ _) _ _ _ => apply sem_ifamb; cbn [is_ambiguous]
    | |- sem _ _ (GAlt _) _ _ _ => apply sem_alt
    | |- alts _ _ _ _ [_] _ => apply alts_last
    | |- alts _ _ _ _ (_ :: _) _ => first [eapply alts_skip; [cannot|]|eapply alts_skip; [fails|]|apply alts_hit]
    end ].
Ltac run := repeat step.

Ltac names := cbn [gram amb] in *.

(** Begin with the right symbol. *)
Ltac begin :=
  first
  [ exact I
  | compute_mask
  | match goal with
    | G : good ?l ?c ?ps ?v |- begins _ ?ps => apply (begins_sub _ _ _ (g_begins _ _ _ _ G)); compute_mask
    | G : good ?l ?c ?ps ?v |- begins _ (?ps ++ _) =>
        apply begins_app; [apply (begins_sub _ _ _ (g_begins _ _ _ _ G)); compute_mask|
          let E := fresh in intros E; first [exfalso; apply (good_nonempty _ _ _ _ G eq_refl E)|begin]]
    | G : goodo ?l ?c ?ps ?v |- begins _ (?ps ++ _) =>
        apply begins_app; [apply (begins_sub _ _ _ (goodo_begins _ _ _ _ G)); compute_mask|intros _; begin]
    | G : goodo ?l ?c ?ps ?v |- begins _ ?ps => apply (begins_sub _ _ _ (goodo_begins _ _ _ _ G)); compute_mask
    | |- begins _ (flag ?b _ ++ _) => destruct b; cbn [flag app]; [compute_mask|begin]
    | |- begins _ (flag ?b _) => destruct b; cbn [flag]; [compute_mask|exact I]
    | G : goods ?l ?c ?ts |- begins _ (separated _ (spelled ?ts) _) =>
        apply (goods_separated_begins _ _ _ _ _ _ G); compute_mask
    | G : goods ?l ?c ?ts, NE : ?ts <> [] |- begins _ (separated _ (spelled ?ts) _ ++ _) =>
        apply begins_app; [apply (goods_separated_begins _ _ _ _ _ _ G); compute_mask|
          let E := fresh in intros E; exfalso; apply (goods_separated_nonempty _ _ _ _ _ G eq_refl NE E)]
    | |- begins _ ((_ ++ _) ++ _) => rewrite <- app_assoc; begin
    end ].

Ltac nonempty :=
  let E := fresh "E" in
  intros E; exfalso;
  repeat match goal with
  | H : _ ++ _ = [] |- _ => apply app_eq_nil in H; destruct H
  end;
  first [ discriminate | match goal with
  | G : good _ _ ?ps _, H : ?ps = [] |- _ => exact (good_nonempty _ _ _ _ G eq_refl H)
  | G : goods _ _ ?ts, NE : ?ts <> [], H : separated _ (spelled ?ts) _ = [] |- _ => exact (goods_separated_nonempty _ _ _ _ _ G eq_refl NE H)
  end ].

Ltac finish := eexists; split; [intros ?; run|cbn [node app asts mark or_nil]; outl].

(** What looks like a name is followed by the right symbol. *)
Ltac apt_good G :=
  first [ exact (good_extra _ _ _ _ G) | exact (proj1 (good_extra _ _ _ _ G))
        | apply (apart_sub _ _ _ (good_extra _ _ _ _ G)); compute_mask
        | refine (apart_begins _ _ _ (g_begins _ _ _ _ G) _); compute_mask ].
Ltac apt :=
  cbn [app];
  first
  [ exact I
  | apply apart_one
  | match goal with
    | G : good ?l ?c ?ps ?v |- apart_in _ ?ps => apt_good G
    | G : good ?l ?c ?ps ?v |- apart_in _ (?ps ++ _) =>
        apply apart_app;
        [ apt_good G
        | let E := fresh in intros E; first [exfalso; exact (good_nonempty _ _ _ _ G eq_refl E)|apt]
        | begin ]
    | G : goodo ?l ?c ?ps ?v |- apart_in _ ?ps =>
        refine (apart_begins _ _ _ (goodo_begins _ _ _ _ G) _); compute_mask
    | |- apart_in _ (flag ?b _ ++ _) => destruct b; cbn [flag app]; apt
    | |- apart_in _ (flag ?b _) => destruct b; cbn [flag]; apt
    | |- apart_in _ (?x :: _) => first [apply apart_cons; begin | apply (apart_begins _ (pbit x)); [compute_mask|compute_mask]]
    end ].

Ltac solid :=
  first [reflexivity | match goal with G : good _ _ _ ?v |- is_whitespace ?v = false => exact (g_solid _ _ _ _ G) end].

(** A rule whose parts are read one after the other. *)
Ltac rule :=
  intros; cbn [app]; constructor;
  [ begin | first [nonempty|intros _; reflexivity] | solid | cbn [extra]; lazymatch goal with |- rejected _ _ _ _ => idtac | |- _ /\ _ => idtac | |- forall _, _ => idtac | _ => first [exact I | apt | solve [begin] | idtac] end | intros toks p q R F; cbn [follow] in F ].

(** The parsers that fail here. *)
Ltac rejections :=
  repeat match goal with
  | H : rejected ?l ?x ?F ?ps, R : reads ?t ?p ?ps ?q |- _ =>
      lazymatch goal with
      | _ : forall e, sem t (amb l) x e p (SFail _) |- _ => fail
      | _ => let s := fresh "s" in let HF := fresh "HF" in destruct (H t p q R) as (s & HF); [clr|]
      end
  end.
Ltac parts := rd; tk; use_all; names.
