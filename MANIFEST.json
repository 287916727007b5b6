{
 "claims": [
  {
   "property": "C01",
   "status": "proved",
   "theorems": [
    "C01_tokens_tile"
   ],
   "note": ""
  },
  {
   "property": "C02",
   "status": "proved",
   "theorems": [
    "C02_eof_once"
   ],
   "note": ""
  },
  {
   "property": "C03",
   "status": "proved",
   "theorems": [
    "C03_extents_valid"
   ],
   "note": ""
  },
  {
   "property": "C04",
   "status": "proved",
   "theorems": [
    "C04_no_panic",
    "C04_calls_never_panic"
   ],
   "note": ""
  },
  {
   "property": "C05",
   "status": "proved",
   "theorems": [
    "C05_error_permanent"
   ],
   "note": ""
  },
  {
   "property": "C06",
   "status": "proved",
   "theorems": [
    "C06_words_by_spelling",
    "C06_keyword_sound"
   ],
   "note": ""
  },
  {
   "property": "C07",
   "status": "proved",
   "theorems": [
    "C07_raw_identifier",
    "C07_raw_identifier_error"
   ],
   "note": ""
  },
  {
   "property": "C08",
   "status": "proved",
   "theorems": [
    "C08_symbols_longest"
   ],
   "note": ""
  },
  {
   "property": "C09",
   "status": "proved",
   "theorems": [
    "C09_whitespace_maximal",
    "C09_whitespace_not_adjacent"
   ],
   "note": ""
  },
  {
   "property": "C10",
   "status": "proved",
   "theorems": [
    "C10_comments",
    "C10_comment_classes"
   ],
   "note": ""
  },
  {
   "property": "C11",
   "status": "partial",
   "theorems": [
    "C11_every_block_comment_partial",
    "C11_simple_block_comment_partial",
    "C11_block_comments_nest_refuted",
    "C11_unterminated_block_comment_accepted"
   ],
   "note": "False of this code: block comments do not nest, and an unterminated one is accepted. Both are proved as refutations. Proved: a block comment ends exactly where Rust ends it, unless another one is opened inside it or it is not closed, and every closed comment without others inside is one token."
  },
  {
   "property": "C12",
   "status": "proved",
   "theorems": [
    "C12_string",
    "C12_string_unterminated"
   ],
   "note": ""
  },
  {
   "property": "C13",
   "status": "proved",
   "theorems": [
    "C13_raw_string",
    "C13_raw_string_sound"
   ],
   "note": ""
  },
  {
   "property": "C14",
   "status": "proved",
   "theorems": [
    "C14_char",
    "C14_byte",
    "C14_lifetime"
   ],
   "note": ""
  },
  {
   "property": "C15",
   "status": "proved",
   "theorems": [
    "C15_number_exact",
    "C15_number_exists",
    "C15_number_unique"
   ],
   "note": ""
  },
  {
   "property": "C16",
   "status": "proved",
   "theorems": [
    "C16_into_simple"
   ],
   "note": ""
  },
  {
   "property": "C17",
   "status": "proved",
   "theorems": [
    "C17_spaced_spellings"
   ],
   "note": ""
  },
  {
   "property": "C18",
   "status": "proved",
   "theorems": [
    "C18_total"
   ],
   "note": ""
  },
  {
   "property": "C19",
   "status": "proved",
   "theorems": [
    "C19_extents_in_bounds"
   ],
   "note": ""
  },
  {
   "property": "C20",
   "status": "partial",
   "theorems": [
    "C20_indexable_partial",
    "C20_starts_partial",
    "C20_indexable_refuted"
   ],
   "note": "Proved for texts without U+200E/U+200F (and starts always); refuted in general: a node that ends in the middle of a split token after such a mark ends inside a character."
  },
  {
   "property": "C21",
   "status": "proved",
   "theorems": [
    "C21_whitespace_conserved"
   ],
   "note": ""
  },
  {
   "property": "C22",
   "status": "proved",
   "theorems": [
    "C22_whitespace_innermost",
    "C22_every_node_collects_refuted"
   ],
   "note": "The nodes that collect are those with an extent and a whitespace vector except six types; C22_every_node_collects_refuted shows the exception matters."
  },
  {
   "property": "C23",
   "status": "proved",
   "theorems": [
    "C23_only_whitespace_changes"
   ],
   "note": ""
  },
  {
   "property": "C24",
   "status": "proved",
   "theorems": [
    "C24_shape_and_markers",
    "C24_markers_complete"
   ],
   "note": "The parts of number literals are those of the number token; the text of attributes and macro arguments is in C38 and C39, comments in C21."
  },
  {
   "property": "C25",
   "status": "proved",
   "theorems": [
    "C25_source_order",
    "C25_every_field_refuted"
   ],
   "note": "Stated with the exceptions named in the property; C25_every_field_refuted shows that each is needed."
  },
  {
   "property": "C26",
   "status": "partial",
   "theorems": [
    "C26_child_within_parent_refuted",
    "C26_nonempty_within_parent_partial",
    "C26_hollow_refuted"
   ],
   "note": "False of this code: empty trait bounds are placed at the next token, outside their parent, and the extents of struct literal fields and of pattern names are always empty. Proved for every non-empty extent below every node of any other kind."
  },
  {
   "property": "C27",
   "status": "proved",
   "theorems": [
    "C27_items_partition"
   ],
   "note": ""
  },
  {
   "property": "C28",
   "status": "partial",
   "theorems": [
    "C28_own_words_partial",
    "C28_own_words_refuted",
    "C28_dropped_behind_lists_partial",
    "C28_prefix_operations_partial",
    "C28_function_types_partial",
    "C28_every_token_partial",
    "C28_token_dropped_refuted"
   ],
   "note": "False of this code: struct S { pub } is accepted and pub is dropped, because a list whose last element fails in the middle ends where the element failed. Proved: in nodes of 107 kinds (CoverSpec.v) every token is a word of the construct or lies in one of the parts; in the 33 kinds that hold lists (DropSpec.v) a token that is neither stands behind all the elements of one of the lists, and in front of the fields behind that list, and the dropped tokens begin with a token that an element of the list may begin with (the table openings of DropSpec.v); in the types of functions it stands between the parentheses; in the 6 kinds of prefix operations and ranges, a token that is neither stands in front of every part. C28_every_token_partial puts this together: every token of a file is accounted for by a node. Missing: that dropped tokens are no whole element (C46 says which elements there are in the texts of its grammar); and tokens read in two steps such as >>."
  },
  {
   "property": "C29",
   "status": "proved",
   "theorems": [
    "C29_error_location",
    "C29_nothing_behind",
    "C29_not_earlier"
   ],
   "note": ""
  },
  {
   "property": "C30",
   "status": "proved",
   "theorems": [
    "C30_line_and_excerpt",
    "C30_every_location",
    "C30_panics_elsewhere"
   ],
   "note": ""
  },
  {
   "property": "C31",
   "status": "partial",
   "theorems": [
    "C31_column_partial",
    "C31_caret_partial",
    "C31_column_refuted"
   ],
   "note": "False of this code: the column of the first line is one less than that of other lines, and its caret is misplaced. Proved: the exact columns and the exact report."
  },
  {
   "property": "C32",
   "status": "partial",
   "theorems": [
    "C32_reaches_every_other_node_partial",
    "C32_well_nested",
    "C32_unique",
    "C32_every_node_refuted"
   ],
   "note": "Nesting, balance and uniqueness are proved, and that every node is entered and left once, for all kinds of nodes but those that occur in pub(...), in the whitespace of Attributed nodes and as operators; that every node is visited is refuted: the path of pub(path) and comments kept by an Attributed node are not visited."
  },
  {
   "property": "C33",
   "status": "partial",
   "theorems": [
    "C33_break_prunes_partial",
    "C33_all_visitors",
    "C33_break_attributed_refuted"
   ],
   "note": "Proved for all nodes but Attributed ones; refuted for those: the answer of visit_attributed_* is ignored."
  },
  {
   "property": "C34",
   "status": "proved",
   "theorems": [
    "C34_pieces",
    "C34_resume",
    "C34_every_point"
   ],
   "note": ""
  },
  {
   "property": "C35",
   "status": "proved",
   "theorems": [
    "C35_nested_generics"
   ],
   "note": ""
  },
  {
   "property": "C36",
   "status": "proved",
   "theorems": [
    "C36_left_nested"
   ],
   "note": ""
  },
  {
   "property": "C37",
   "status": "partial",
   "theorems": [
    "C37_prefix_before_infix_partial",
    "C37_product_in_sum_refuted",
    "C37_field_of_sum_refuted",
    "C37_field_of_negation_refuted"
   ],
   "note": "False of this code: all infix operators have the same precedence, and fields and calls apply to the whole expression before them. Proved as refutations; prefix operators do apply before infix ones."
  },
  {
   "property": "C38",
   "status": "proved",
   "theorems": [
    "C38_accepted",
    "C38_balanced",
    "C38_unique"
   ],
   "note": ""
  },
  {
   "property": "C39",
   "status": "proved",
   "theorems": [
    "C39_attributes"
   ],
   "note": ""
  },
  {
   "property": "C40",
   "status": "partial",
   "theorems": [
    "C40_restriction_restored",
    "C40_restriction_lifted_partial",
    "C40_repeat_count_refuted"
   ],
   "note": "Restoring is proved; lifting is proved for parentheses, explicit arrays, call arguments, indices, match arms and struct literals, and refuted for the count of [value; count] and for blocks."
  },
  {
   "property": "C41",
   "status": "partial",
   "theorems": [
    "C41_value_partial",
    "C41_block_like_value_partial",
    "C41_no_value_partial",
    "C41_value_behind_semicolon_refuted",
    "C41_trailing_expression_refuted"
   ],
   "note": "False of this code for a last expression that stands behind a semicolon: it is always kept as a statement. Proved: every other block."
  },
  {
   "property": "C42",
   "status": "proved",
   "theorems": [
    "C42_layout"
   ],
   "note": ""
  },
  {
   "property": "C43",
   "status": "proved",
   "theorems": [
    "C43_use"
   ],
   "note": ""
  },
  {
   "property": "C44",
   "status": "proved",
   "theorems": [
    "C44_types"
   ],
   "note": "Types named default or dyn, and for-all function types that start with default, are left out: the code takes the word for a qualifier."
  },
  {
   "property": "C45",
   "status": "proved",
   "theorems": [
    "C45_depth",
    "C45_monotone",
    "C45_pure"
   ],
   "note": ""
  },
  {
   "property": "C46",
   "status": "proved",
   "theorems": [
    "C46_parsed_as_spelled",
    "C46_unambiguous"
   ],
   "note": "RustSpec.v lists what the fragment leaves out: statements that start with the single word crate, default or union, named types called default or dyn, and the like. Operators associate as the code has it (C36, C37)."
  },
  {
   "property": "C47",
   "status": "partial",
   "theorems": [
    "C47_crate_path_refuted",
    "C47_generic_attribute_refuted",
    "C47_self_without_comma_refuted",
    "C47_nested_index_refuted"
   ],
   "note": "False of this code. Proved as refutations only."
  },
  {
   "property": "C48",
   "status": "proved",
   "theorems": [
    "C48_first_and_last_token"
   ],
   "note": "The tables say nothing of the end of nodes that may end with a closing angle bracket (their extent may end too early, C20 and C34) or with a part of any syntax, and nothing of nodes that may start with any type, pattern or expression."
  },
  {
   "property": "C49",
   "status": "proved",
   "theorems": [
    "C49_operator_between_operands",
    "C49_operators_complete"
   ],
   "note": ""
  },
  {
   "property": "C50",
   "status": "proved",
   "theorems": [
    "C50_statement_count"
   ],
   "note": ""
  },
  {
   "property": "C51",
   "status": "proved",
   "theorems": [
    "C51_keep_going",
    "C51_stops_at_first_failure",
    "C51_all_accepted",
    "C51_dump",
    "C51_never_broken"
   ],
   "note": ""
  },
  {
   "property": "C52",
   "status": "proved",
   "theorems": [
    "C52_token_lines",
    "C52_failure"
   ],
   "note": ""
  },
  {
   "property": "C53",
   "status": "proved",
   "theorems": [
    "C53_landmarks"
   ],
   "note": "The table (LandSpec.v) leaves out the double colons of use paths, the arrow of closures and the as of <T as U>; nothing is said of the end of a node behind half of a compound token."
  },
  {
   "property": "C54",
   "status": "proved",
   "theorems": [
    "C54_separators",
    "C54_receiver_and_lifetimes_refuted"
   ],
   "note": "Lists of the table in LandSpec.v. Arguments of functions are left out: the comma behind a receiver is optional in this code (C54_receiver_and_lifetimes_refuted)."
  },
  {
   "property": "C55",
   "status": "proved",
   "theorems": [
    "C55_same_prefix",
    "C55_not_there",
    "C55_taken",
    "C55_complete_refuted"
   ],
   "note": "C55_complete_refuted shows that the list does not name everything that would be taken. ExpectedNumber is taken to ask for plain decimal numbers only, which is what a tuple index needs."
  },
  {
   "property": "C56",
   "status": "proved",
   "theorems": [
    "C56_heads_without_literals"
   ],
   "note": ""
  },
  {
   "property": "C57",
   "status": "proved",
   "theorems": [
    "C57_delimiters_pair",
    "C57_without_macros"
   ],
   "note": "DelimSpec.v makes the exception for texts behind ! and #, whether or not the ! belongs to a macro invocation."
  },
  {
   "property": "C58",
   "status": "proved",
   "theorems": [
    "C58_no_if_let_nodes",
    "C58_if_let_refuted"
   ],
   "note": "The condition is plain_lengths of LetSpec.v; C58_length_ex shows an IfLet node where it fails. C58_if_let_refuted refutes what the names of the nodes suggest."
  },
  {
   "property": "C59",
   "status": "proved",
   "theorems": [
    "C59_exactly_the_changes",
    "C59_well_nested",
    "C59_only_these_changes",
    "C59_types_are_kept",
    "C59_reading_visitor",
    "C59_ends",
    "C59_need_not_end",
    "C59_file_is_apportioned"
   ],
   "note": ""
  },
  {
   "property": "C60",
   "status": "proved",
   "theorems": [
    "C60_names",
    "C60_is",
    "C60_exactly_one",
    "C60_as_into",
    "C60_extent",
    "C60_types",
    "C60_nodes",
    "C60_token_methods",
    "C60_token_exactly_one",
    "C60_token_extent",
    "C60_parser_methods",
    "C60_number_methods"
   ],
   "note": ""
  },
  {
   "property": "C61",
   "status": "proved",
   "theorems": [
    "C61_cut_at_item",
    "C61_items_in_front"
   ],
   "note": ""
  },
  {
   "property": "C62",
   "status": "proved",
   "theorems": [
    "C62_tokens_of_joined_texts",
    "C62_comments_in_front",
    "C62_comments_behind",
    "C62_comments_behind_tree",
    "C62_line_comment_in_front",
    "C62_open_raw_string_refuted",
    "C62_open_comment_refuted"
   ],
   "note": ""
  },
  {
   "property": "C63",
   "status": "proved",
   "theorems": [
    "C63_parser_message",
    "C63_tokenizer_message",
    "C63_same_message",
    "C63_same_tokenizer_message",
    "C63_told_apart",
    "C63_tokenizer_told_apart",
    "C63_programs"
   ],
   "note": ""
  },
  {
   "property": "C64",
   "status": "proved",
   "theorems": [
    "C64_debug",
    "C64_dump",
    "C64_program",
    "C64_indented"
   ],
   "note": ""
  },
  {
   "property": "C65",
   "status": "proved",
   "theorems": [
    "C65_listing",
    "C65_tokens",
    "C65_lines",
    "C65_failure"
   ],
   "note": ""
  }
 ]
}
