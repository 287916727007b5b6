(** Names used by the parser model; generated by tools/gen_nt.py (no manual edits). *)

From Coq Require Import String List.
Import ListNotations.
Local Open Scope string_scope.

(** src/parser/mod.rs:177-288 [enum Error]. *)
Inductive perror : Type :=
| ExpectedAmpersand
| ExpectedAmpersandEquals
| ExpectedAs
| ExpectedAsterisk
| ExpectedAsync
| ExpectedAt
| ExpectedAuto
| ExpectedBackslash
| ExpectedBang
| ExpectedBox
| ExpectedBreak
| ExpectedByte
| ExpectedByteString
| ExpectedByteStringRaw
| ExpectedCaret
| ExpectedCaretEquals
| ExpectedCharacter
| ExpectedColon
| ExpectedComma
| ExpectedConst
| ExpectedContinue
| ExpectedCrate
| ExpectedDefault
| ExpectedDyn
| ExpectedDivideEquals
| ExpectedDocCommentInnerBlock
| ExpectedDocCommentInnerLine
| ExpectedDocCommentOuterBlock
| ExpectedDocCommentOuterLine
| ExpectedDollar
| ExpectedDoubleAmpersand
| ExpectedDoubleColon
| ExpectedDoubleEquals
| ExpectedDoubleLeftAngle
| ExpectedDoublePeriod
| ExpectedDoublePeriodEquals
| ExpectedDoublePipe
| ExpectedDoubleRightAngle
| ExpectedElse
| ExpectedEnum
| ExpectedEquals
| ExpectedExtern
| ExpectedFn
| ExpectedFor
| ExpectedGreaterThanOrEquals
| ExpectedHash
| ExpectedIdent
| ExpectedIf
| ExpectedImpl
| ExpectedIn
| ExpectedLeftAngle
| ExpectedLeftCurly
| ExpectedLeftParen
| ExpectedLeftSquare
| ExpectedLessThanOrEquals
| ExpectedLet
| ExpectedLifetime
| ExpectedLoop
| ExpectedMatch
| ExpectedMinus
| ExpectedMinusEquals
| ExpectedMod
| ExpectedMove
| ExpectedMut
| ExpectedNotEqual
| ExpectedNumber
| ExpectedPercent
| ExpectedPercentEquals
| ExpectedPeriod
| ExpectedPipe
| ExpectedPipeEquals
| ExpectedPlus
| ExpectedPlusEquals
| ExpectedPub
| ExpectedQuestionMark
| ExpectedRef
| ExpectedReturn
| ExpectedRightAngle
| ExpectedRightCurly
| ExpectedRightParen
| ExpectedRightSquare
| ExpectedSelfIdent
| ExpectedSemicolon
| ExpectedShiftLeftEquals
| ExpectedShiftRightEquals
| ExpectedSlash
| ExpectedStatic
| ExpectedString
| ExpectedStringRaw
| ExpectedStruct
| ExpectedThickArrow
| ExpectedThinArrow
| ExpectedTilde
| ExpectedTimesEquals
| ExpectedTrait
| ExpectedTriplePeriod
| ExpectedType
| ExpectedUnion
| ExpectedUnsafe
| ExpectedUse
| ExpectedWhere
| ExpectedWhile
| ExpectedExpression
| BlockNotAllowedHere.

(** The parser functions of src/parser/mod.rs and src/parser/expression.rs that
    are not token shims or combinators. *)
Inductive nt : Type :=
| N_item
| N_function
| N_function_header
| N_function_qualifiers
| N_function_qualifier_extern
| N_ident
| N_generic_declarations
| N_generic_declaration_lifetime
| N_generic_declaration_lifetime_bounds
| N_generic_declaration_type
| N_generic_declaration_type_bounds
| N_generic_declaration_type_default
| N_generic_declaration_const
| N_function_arglist
| N_self_argument
| N_self_argument_longhand
| N_self_argument_shorthand
| N_self_argument_qualifier
| N_function_argument
| N_function_return_type
| N_where_clause
| N_where_clause_item
| N_where_clause_kind
| N_where_lifetime
| N_where_type
| N_trait_bounds
| N_trait_bound
| N_trait_bound_lifetime
| N_trait_bound_normal
| N_trait_bound_normal_child
| N_trait_bound_relaxed
| N_block
| N_statement
| N_statement_empty
| N_item_macro_call
| N_item_macro_call_args
| N_item_macro_call_paren
| N_item_macro_call_square
| N_item_macro_call_curly
| N_character_literal
| N_string_literal
| N_number_literal
| N_path
| N_pathed_ident
| N_path_component
| N_turbofish
| N_pattern
| N_pattern_name
| N_pattern_kind
| N_pattern_ident
| N_pattern_tuple
| N_pattern_tuple_member
| N_pattern_slice
| N_pattern_slice_member
| N_pattern_slice_subslice
| N_pattern_struct
| N_pattern_struct_field
| N_pattern_struct_field_long
| N_pattern_byte
| N_pattern_char
| N_pattern_byte_string
| N_pattern_string
| N_pattern_number
| N_pattern_reference
| N_pattern_box
| N_pattern_range_exclusive
| N_range_inclusive_operator
| N_pattern_range_inclusive
| N_pattern_range_component
| N_pattern_macro_call
| N_p_struct
| N_struct_defn_body
| N_struct_defn_body_brace
| N_struct_defn_body_brace_only
| N_struct_defn_body_tuple
| N_struct_defn_body_tuple_only
| N_tuple_defn_field
| N_struct_defn_field
| N_p_union
| N_p_enum
| N_enum_variant
| N_enum_variant_body
| N_enum_discriminant
| N_p_trait
| N_trait_impl_member
| N_trait_member_function
| N_trait_member_type
| N_trait_member_const
| N_trait_member_const_value
| N_visibility
| N_visibility_public
| N_visibility_public_qualifier
| N_visibility_qualifier_kind
| N_trait_impl_function_header
| N_trait_impl_function_arglist
| N_trait_impl_function_argument
| N_trait_impl_function_argument_name
| N_trait_impl_function_body
| N_p_impl
| N_p_impl_kind
| N_p_impl_of_inherent
| N_p_impl_of_trait
| N_type_or_wildcard
| N_impl_member
| N_impl_function
| N_impl_type
| N_impl_const
| N_p_const
| N_p_static
| N_extern_crate
| N_extern_crate_rename
| N_extern_block
| N_extern_block_member
| N_extern_block_static
| N_extern_block_type
| N_extern_block_member_function
| N_extern_block_function_arglist
| N_extern_block_function_argument
| N_extern_block_function_argument_named
| N_extern_block_function_argument_variadic
| N_p_use
| N_use_path
| N_use_path_component
| N_path_member
| N_use_tail
| N_use_tail_ident
| N_use_tail_ident_rename
| N_use_tail_glob
| N_use_tail_multi
| N_type_alias
| N_module
| N_module_body_or_not
| N_module_body
| N_typ
| N_typ_single
| N_typ_kind
| N_typ_reference
| N_typ_reference_kind
| N_typ_pointer
| N_typ_pointer_kind
| N_typ_tuple
| N_typ_higher_ranked_trait_bounds
| N_higher_ranked_trait_bounds
| N_typ_higher_ranked_trait_bounds_child
| N_typ_dyn_trait
| N_typ_impl_trait
| N_typ_additional
| N_typ_named
| N_typ_named_component
| N_typ_disambiguation
| N_disambiguation_core
| N_disambiguation_core_to_type
| N_typ_array
| N_typ_slice
| N_typ_generics
| N_typ_generics_fn
| N_typ_generics_angle
| N_typ_generics_angle_member
| N_associated_type
| N_associated_type_value
| N_associated_type_value_equal
| N_associated_type_value_bound
| N_typ_function
| N_typ_function_argument
| N_typ_function_argument_name
| N_typ_function_argument_variadic
| N_lifetime
| N_attribute
| N_attribute_literal
| N_attribute_containing
| N_attribute_containing_literal
| N_expression
| N_statement_expression
| N_expression_prefix_or_atom
| N_expression_infix_or_postfix
| N_operator_prefix
| N_operator_prefix_reference
| N_operator_infix
| N_operator_postfix
| N_operator_postfix_limited
| N_operator_postfix_as_type
| N_operator_postfix_ascription
| N_operator_postfix_call
| N_operator_postfix_field_access
| N_field_name
| N_field_name_number
| N_operator_postfix_slice
| N_expression_atom
| N_expr_macro_call
| N_expr_macro_call_args
| N_expr_macro_call_paren
| N_expr_macro_call_square
| N_expr_macro_call_curly
| N_expr_let
| N_expr_let_type
| N_expr_let_rhs
| N_expr_if
| N_expr_if_else_if
| N_expr_if_else_end
| N_expr_followed_by_block
| N_expr_for_loop
| N_loop_label
| N_expr_loop
| N_expr_if_let
| N_expr_while
| N_expr_while_let
| N_expr_match
| N_match_arm
| N_match_arm_guard
| N_match_arm_hand
| N_expr_tuple_or_parenthetical
| N_expr_array
| N_expr_array_explicit
| N_expr_array_repeated
| N_expr_byte
| N_expr_byte_string
| N_expr_closure
| N_expr_closure_arg
| N_expr_closure_arg_type
| N_expr_closure_return
| N_expr_closure_return_explicit
| N_expr_closure_return_body
| N_expr_closure_return_inferred
| N_expr_return
| N_expr_continue
| N_expr_break
| N_expr_block
| N_expr_unsafe_block
| N_expr_async_block
| N_expr_value
| N_expr_value_struct_literal
| N_expr_value_struct_literal_field
| N_expr_value_struct_literal_field_value
| N_expr_value_struct_literal_splat
| N_expr_disambiguation.

Definition all_nts : list nt :=
  [N_item; N_function; N_function_header; N_function_qualifiers; N_function_qualifier_extern; N_ident; N_generic_declarations; N_generic_declaration_lifetime; N_generic_declaration_lifetime_bounds; N_generic_declaration_type; N_generic_declaration_type_bounds; N_generic_declaration_type_default; N_generic_declaration_const; N_function_arglist; N_self_argument; N_self_argument_longhand; N_self_argument_shorthand; N_self_argument_qualifier; N_function_argument; N_function_return_type; N_where_clause; N_where_clause_item; N_where_clause_kind; N_where_lifetime; N_where_type; N_trait_bounds; N_trait_bound; N_trait_bound_lifetime; N_trait_bound_normal; N_trait_bound_normal_child; N_trait_bound_relaxed; N_block; N_statement; N_statement_empty; N_item_macro_call; N_item_macro_call_args; N_item_macro_call_paren; N_item_macro_call_square; N_item_macro_call_curly; N_character_literal; N_string_literal; N_number_literal; N_path; N_pathed_ident; N_path_component; N_turbofish; N_pattern; N_pattern_name; N_pattern_kind; N_pattern_ident; N_pattern_tuple; N_pattern_tuple_member; N_pattern_slice; N_pattern_slice_member; N_pattern_slice_subslice; N_pattern_struct; N_pattern_struct_field; N_pattern_struct_field_long; N_pattern_byte; N_pattern_char; N_pattern_byte_string; N_pattern_string; N_pattern_number; N_pattern_reference; N_pattern_box; N_pattern_range_exclusive; N_range_inclusive_operator; N_pattern_range_inclusive; N_pattern_range_component; N_pattern_macro_call; N_p_struct; N_struct_defn_body; N_struct_defn_body_brace; N_struct_defn_body_brace_only; N_struct_defn_body_tuple; N_struct_defn_body_tuple_only; N_tuple_defn_field; N_struct_defn_field; N_p_union; N_p_enum; N_enum_variant; N_enum_variant_body; N_enum_discriminant; N_p_trait; N_trait_impl_member; N_trait_member_function; N_trait_member_type; N_trait_member_const; N_trait_member_const_value; N_visibility; N_visibility_public; N_visibility_public_qualifier; N_visibility_qualifier_kind; N_trait_impl_function_header; N_trait_impl_function_arglist; N_trait_impl_function_argument; N_trait_impl_function_argument_name; N_trait_impl_function_body; N_p_impl; N_p_impl_kind; N_p_impl_of_inherent; N_p_impl_of_trait; N_type_or_wildcard; N_impl_member; N_impl_function; N_impl_type; N_impl_const; N_p_const; N_p_static; N_extern_crate; N_extern_crate_rename; N_extern_block; N_extern_block_member; N_extern_block_static; N_extern_block_type; N_extern_block_member_function; N_extern_block_function_arglist; N_extern_block_function_argument; N_extern_block_function_argument_named; N_extern_block_function_argument_variadic; N_p_use; N_use_path; N_use_path_component; N_path_member; N_use_tail; N_use_tail_ident; N_use_tail_ident_rename; N_use_tail_glob; N_use_tail_multi; N_type_alias; N_module; N_module_body_or_not; N_module_body; N_typ; N_typ_single; N_typ_kind; N_typ_reference; N_typ_reference_kind; N_typ_pointer; N_typ_pointer_kind; N_typ_tuple; N_typ_higher_ranked_trait_bounds; N_higher_ranked_trait_bounds; N_typ_higher_ranked_trait_bounds_child; N_typ_dyn_trait; N_typ_impl_trait; N_typ_additional; N_typ_named; N_typ_named_component; N_typ_disambiguation; N_disambiguation_core; N_disambiguation_core_to_type; N_typ_array; N_typ_slice; N_typ_generics; N_typ_generics_fn; N_typ_generics_angle; N_typ_generics_angle_member; N_associated_type; N_associated_type_value; N_associated_type_value_equal; N_associated_type_value_bound; N_typ_function; N_typ_function_argument; N_typ_function_argument_name; N_typ_function_argument_variadic; N_lifetime; N_attribute; N_attribute_literal; N_attribute_containing; N_attribute_containing_literal; N_expression; N_statement_expression; N_expression_prefix_or_atom; N_expression_infix_or_postfix; N_operator_prefix; N_operator_prefix_reference; N_operator_infix; N_operator_postfix; N_operator_postfix_limited; N_operator_postfix_as_type; N_operator_postfix_ascription; N_operator_postfix_call; N_operator_postfix_field_access; N_field_name; N_field_name_number; N_operator_postfix_slice; N_expression_atom; N_expr_macro_call; N_expr_macro_call_args; N_expr_macro_call_paren; N_expr_macro_call_square; N_expr_macro_call_curly; N_expr_let; N_expr_let_type; N_expr_let_rhs; N_expr_if; N_expr_if_else_if; N_expr_if_else_end; N_expr_followed_by_block; N_expr_for_loop; N_loop_label; N_expr_loop; N_expr_if_let; N_expr_while; N_expr_while_let; N_expr_match; N_match_arm; N_match_arm_guard; N_match_arm_hand; N_expr_tuple_or_parenthetical; N_expr_array; N_expr_array_explicit; N_expr_array_repeated; N_expr_byte; N_expr_byte_string; N_expr_closure; N_expr_closure_arg; N_expr_closure_arg_type; N_expr_closure_return; N_expr_closure_return_explicit; N_expr_closure_return_body; N_expr_closure_return_inferred; N_expr_return; N_expr_continue; N_expr_break; N_expr_block; N_expr_unsafe_block; N_expr_async_block; N_expr_value; N_expr_value_struct_literal; N_expr_value_struct_literal_field; N_expr_value_struct_literal_field_value; N_expr_value_struct_literal_splat; N_expr_disambiguation].

Definition nt_index (n : nt) : nat :=
  match n with
  | N_item => 0
  | N_function => 1
  | N_function_header => 2
  | N_function_qualifiers => 3
  | N_function_qualifier_extern => 4
  | N_ident => 5
  | N_generic_declarations => 6
  | N_generic_declaration_lifetime => 7
  | N_generic_declaration_lifetime_bounds => 8
  | N_generic_declaration_type => 9
  | N_generic_declaration_type_bounds => 10
  | N_generic_declaration_type_default => 11
  | N_generic_declaration_const => 12
  | N_function_arglist => 13
  | N_self_argument => 14
  | N_self_argument_longhand => 15
  | N_self_argument_shorthand => 16
  | N_self_argument_qualifier => 17
  | N_function_argument => 18
  | N_function_return_type => 19
  | N_where_clause => 20
  | N_where_clause_item => 21
  | N_where_clause_kind => 22
  | N_where_lifetime => 23
  | N_where_type => 24
  | N_trait_bounds => 25
  | N_trait_bound => 26
  | N_trait_bound_lifetime => 27
  | N_trait_bound_normal => 28
  | N_trait_bound_normal_child => 29
  | N_trait_bound_relaxed => 30
  | N_block => 31
  | N_statement => 32
  | N_statement_empty => 33
  | N_item_macro_call => 34
  | N_item_macro_call_args => 35
  | N_item_macro_call_paren => 36
  | N_item_macro_call_square => 37
  | N_item_macro_call_curly => 38
  | N_character_literal => 39
  | N_string_literal => 40
  | N_number_literal => 41
  | N_path => 42
  | N_pathed_ident => 43
  | N_path_component => 44
  | N_turbofish => 45
  | N_pattern => 46
  | N_pattern_name => 47
  | N_pattern_kind => 48
  | N_pattern_ident => 49
  | N_pattern_tuple => 50
  | N_pattern_tuple_member => 51
  | N_pattern_slice => 52
  | N_pattern_slice_member => 53
  | N_pattern_slice_subslice => 54
  | N_pattern_struct => 55
  | N_pattern_struct_field => 56
  | N_pattern_struct_field_long => 57
  | N_pattern_byte => 58
  | N_pattern_char => 59
  | N_pattern_byte_string => 60
  | N_pattern_string => 61
  | N_pattern_number => 62
  | N_pattern_reference => 63
  | N_pattern_box => 64
  | N_pattern_range_exclusive => 65
  | N_range_inclusive_operator => 66
  | N_pattern_range_inclusive => 67
  | N_pattern_range_component => 68
  | N_pattern_macro_call => 69
  | N_p_struct => 70
  | N_struct_defn_body => 71
  | N_struct_defn_body_brace => 72
  | N_struct_defn_body_brace_only => 73
  | N_struct_defn_body_tuple => 74
  | N_struct_defn_body_tuple_only => 75
  | N_tuple_defn_field => 76
  | N_struct_defn_field => 77
  | N_p_union => 78
  | N_p_enum => 79
  | N_enum_variant => 80
  | N_enum_variant_body => 81
  | N_enum_discriminant => 82
  | N_p_trait => 83
  | N_trait_impl_member => 84
  | N_trait_member_function => 85
  | N_trait_member_type => 86
  | N_trait_member_const => 87
  | N_trait_member_const_value => 88
  | N_visibility => 89
  | N_visibility_public => 90
  | N_visibility_public_qualifier => 91
  | N_visibility_qualifier_kind => 92
  | N_trait_impl_function_header => 93
  | N_trait_impl_function_arglist => 94
  | N_trait_impl_function_argument => 95
  | N_trait_impl_function_argument_name => 96
  | N_trait_impl_function_body => 97
  | N_p_impl => 98
  | N_p_impl_kind => 99
  | N_p_impl_of_inherent => 100
  | N_p_impl_of_trait => 101
  | N_type_or_wildcard => 102
  | N_impl_member => 103
  | N_impl_function => 104
  | N_impl_type => 105
  | N_impl_const => 106
  | N_p_const => 107
  | N_p_static => 108
  | N_extern_crate => 109
  | N_extern_crate_rename => 110
  | N_extern_block => 111
  | N_extern_block_member => 112
  | N_extern_block_static => 113
  | N_extern_block_type => 114
  | N_extern_block_member_function => 115
  | N_extern_block_function_arglist => 116
  | N_extern_block_function_argument => 117
  | N_extern_block_function_argument_named => 118
  | N_extern_block_function_argument_variadic => 119
  | N_p_use => 120
  | N_use_path => 121
  | N_use_path_component => 122
  | N_path_member => 123
  | N_use_tail => 124
  | N_use_tail_ident => 125
  | N_use_tail_ident_rename => 126
  | N_use_tail_glob => 127
  | N_use_tail_multi => 128
  | N_type_alias => 129
  | N_module => 130
  | N_module_body_or_not => 131
  | N_module_body => 132
  | N_typ => 133
  | N_typ_single => 134
  | N_typ_kind => 135
  | N_typ_reference => 136
  | N_typ_reference_kind => 137
  | N_typ_pointer => 138
  | N_typ_pointer_kind => 139
  | N_typ_tuple => 140
  | N_typ_higher_ranked_trait_bounds => 141
  | N_higher_ranked_trait_bounds => 142
  | N_typ_higher_ranked_trait_bounds_child => 143
  | N_typ_dyn_trait => 144
  | N_typ_impl_trait => 145
  | N_typ_additional => 146
  | N_typ_named => 147
  | N_typ_named_component => 148
  | N_typ_disambiguation => 149
  | N_disambiguation_core => 150
  | N_disambiguation_core_to_type => 151
  | N_typ_array => 152
  | N_typ_slice => 153
  | N_typ_generics => 154
  | N_typ_generics_fn => 155
  | N_typ_generics_angle => 156
  | N_typ_generics_angle_member => 157
  | N_associated_type => 158
  | N_associated_type_value => 159
  | N_associated_type_value_equal => 160
  | N_associated_type_value_bound => 161
  | N_typ_function => 162
  | N_typ_function_argument => 163
  | N_typ_function_argument_name => 164
  | N_typ_function_argument_variadic => 165
  | N_lifetime => 166
  | N_attribute => 167
  | N_attribute_literal => 168
  | N_attribute_containing => 169
  | N_attribute_containing_literal => 170
  | N_expression => 171
  | N_statement_expression => 172
  | N_expression_prefix_or_atom => 173
  | N_expression_infix_or_postfix => 174
  | N_operator_prefix => 175
  | N_operator_prefix_reference => 176
  | N_operator_infix => 177
  | N_operator_postfix => 178
  | N_operator_postfix_limited => 179
  | N_operator_postfix_as_type => 180
  | N_operator_postfix_ascription => 181
  | N_operator_postfix_call => 182
  | N_operator_postfix_field_access => 183
  | N_field_name => 184
  | N_field_name_number => 185
  | N_operator_postfix_slice => 186
  | N_expression_atom => 187
  | N_expr_macro_call => 188
  | N_expr_macro_call_args => 189
  | N_expr_macro_call_paren => 190
  | N_expr_macro_call_square => 191
  | N_expr_macro_call_curly => 192
  | N_expr_let => 193
  | N_expr_let_type => 194
  | N_expr_let_rhs => 195
  | N_expr_if => 196
  | N_expr_if_else_if => 197
  | N_expr_if_else_end => 198
  | N_expr_followed_by_block => 199
  | N_expr_for_loop => 200
  | N_loop_label => 201
  | N_expr_loop => 202
  | N_expr_if_let => 203
  | N_expr_while => 204
  | N_expr_while_let => 205
  | N_expr_match => 206
  | N_match_arm => 207
  | N_match_arm_guard => 208
  | N_match_arm_hand => 209
  | N_expr_tuple_or_parenthetical => 210
  | N_expr_array => 211
  | N_expr_array_explicit => 212
  | N_expr_array_repeated => 213
  | N_expr_byte => 214
  | N_expr_byte_string => 215
  | N_expr_closure => 216
  | N_expr_closure_arg => 217
  | N_expr_closure_arg_type => 218
  | N_expr_closure_return => 219
  | N_expr_closure_return_explicit => 220
  | N_expr_closure_return_body => 221
  | N_expr_closure_return_inferred => 222
  | N_expr_return => 223
  | N_expr_continue => 224
  | N_expr_break => 225
  | N_expr_block => 226
  | N_expr_unsafe_block => 227
  | N_expr_async_block => 228
  | N_expr_value => 229
  | N_expr_value_struct_literal => 230
  | N_expr_value_struct_literal_field => 231
  | N_expr_value_struct_literal_field_value => 232
  | N_expr_value_struct_literal_splat => 233
  | N_expr_disambiguation => 234
  end.

Lemma all_nts_complete n : In n all_nts.
Proof. apply nth_error_In with (n := nt_index n). destruct n; reflexivity. Qed.

Lemma all_nts_nth n : nth_error all_nts (nt_index n) = Some n.
Proof. destruct n; reflexivity. Qed.

