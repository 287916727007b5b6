(** The grammar: every parser function of src/parser/mod.rs and
    src/parser/expression.rs as a term of the language of [Grammar];
    generated by tools/gen_table.py from the Rust text (no manual edits). *)

From Coq Require Import String List.
From Verif Require Import Base Token Schema Value Nt Grammar.
Import ListNotations.
Local Open Scope string_scope.

(** * Token shims, src/parser/mod.rs:367-476 *)

(* src/parser/mod.rs:369 *)
Definition t_ident_normal : g := GTok (MK KIdent) ExpectedIdent.
(* src/parser/mod.rs:370 *)
Definition t_lifetime_normal : g := GTok (MK KLifetime) ExpectedLifetime.
(* src/parser/mod.rs:371 *)
Definition t_number_normal : g := GTok MNumber ExpectedNumber.
(* src/parser/mod.rs:373 *)
Definition t_character : g := GTok (MK KCharacter) ExpectedCharacter.
(* src/parser/mod.rs:374 *)
Definition t_string : g := GTok (MK KString) ExpectedString.
(* src/parser/mod.rs:375 *)
Definition t_string_raw : g := GTok (MK KStringRaw) ExpectedStringRaw.
(* src/parser/mod.rs:376 *)
Definition t_byte : g := GTok (MK KByte) ExpectedByte.
(* src/parser/mod.rs:377 *)
Definition t_byte_string : g := GTok (MK KByteString) ExpectedByteString.
(* src/parser/mod.rs:378 *)
Definition t_byte_string_raw : g := GTok (MK KByteStringRaw) ExpectedByteStringRaw.
(* src/parser/mod.rs:381 *)
Definition t_kw_as : g := GTok (MK KAs) ExpectedAs.
(* src/parser/mod.rs:382 *)
Definition t_kw_async : g := GTok (MK KAsync) ExpectedAsync.
(* src/parser/mod.rs:383 *)
Definition t_kw_auto : g := GTok (MK KAuto) ExpectedAuto.
(* src/parser/mod.rs:384 *)
Definition t_kw_box : g := GTok (MK KBox) ExpectedBox.
(* src/parser/mod.rs:385 *)
Definition t_kw_break : g := GTok (MK KBreak) ExpectedBreak.
(* src/parser/mod.rs:386 *)
Definition t_kw_const : g := GTok (MK KConst) ExpectedConst.
(* src/parser/mod.rs:387 *)
Definition t_kw_continue : g := GTok (MK KContinue) ExpectedContinue.
(* src/parser/mod.rs:388 *)
Definition t_kw_crate : g := GTok (MK KCrate) ExpectedCrate.
(* src/parser/mod.rs:389 *)
Definition t_kw_default : g := GTok (MK KDefault) ExpectedDefault.
(* src/parser/mod.rs:390 *)
Definition t_kw_dyn : g := GTok (MK KDyn) ExpectedDyn.
(* src/parser/mod.rs:391 *)
Definition t_kw_else : g := GTok (MK KElse) ExpectedElse.
(* src/parser/mod.rs:392 *)
Definition t_kw_enum : g := GTok (MK KEnum) ExpectedEnum.
(* src/parser/mod.rs:393 *)
Definition t_kw_extern : g := GTok (MK KExtern) ExpectedExtern.
(* src/parser/mod.rs:394 *)
Definition t_kw_fn : g := GTok (MK KFn) ExpectedFn.
(* src/parser/mod.rs:395 *)
Definition t_kw_for : g := GTok (MK KFor) ExpectedFor.
(* src/parser/mod.rs:396 *)
Definition t_kw_if : g := GTok (MK KIf) ExpectedIf.
(* src/parser/mod.rs:397 *)
Definition t_kw_impl : g := GTok (MK KImpl) ExpectedImpl.
(* src/parser/mod.rs:398 *)
Definition t_kw_in : g := GTok (MK KIn) ExpectedIn.
(* src/parser/mod.rs:399 *)
Definition t_kw_let : g := GTok (MK KLet) ExpectedLet.
(* src/parser/mod.rs:400 *)
Definition t_kw_loop : g := GTok (MK KLoop) ExpectedLoop.
(* src/parser/mod.rs:401 *)
Definition t_kw_match : g := GTok (MK KMatch) ExpectedMatch.
(* src/parser/mod.rs:402 *)
Definition t_kw_mod : g := GTok (MK KMod) ExpectedMod.
(* src/parser/mod.rs:403 *)
Definition t_kw_move : g := GTok (MK KMove) ExpectedMove.
(* src/parser/mod.rs:404 *)
Definition t_kw_mut : g := GTok (MK KMut) ExpectedMut.
(* src/parser/mod.rs:405 *)
Definition t_kw_pub : g := GTok (MK KPub) ExpectedPub.
(* src/parser/mod.rs:406 *)
Definition t_kw_ref : g := GTok (MK KRef) ExpectedRef.
(* src/parser/mod.rs:407 *)
Definition t_kw_return : g := GTok (MK KReturn) ExpectedReturn.
(* src/parser/mod.rs:408 *)
Definition t_kw_self_ident : g := GTok (MK KSelfIdent) ExpectedSelfIdent.
(* src/parser/mod.rs:409 *)
Definition t_kw_static : g := GTok (MK KStatic) ExpectedStatic.
(* src/parser/mod.rs:410 *)
Definition t_kw_struct : g := GTok (MK KStruct) ExpectedStruct.
(* src/parser/mod.rs:411 *)
Definition t_kw_trait : g := GTok (MK KTrait) ExpectedTrait.
(* src/parser/mod.rs:412 *)
Definition t_kw_type : g := GTok (MK KType) ExpectedType.
(* src/parser/mod.rs:413 *)
Definition t_kw_union : g := GTok (MK KUnion) ExpectedUnion.
(* src/parser/mod.rs:414 *)
Definition t_kw_unsafe : g := GTok (MK KUnsafe) ExpectedUnsafe.
(* src/parser/mod.rs:415 *)
Definition t_kw_use : g := GTok (MK KUse) ExpectedUse.
(* src/parser/mod.rs:416 *)
Definition t_kw_where : g := GTok (MK KWhere) ExpectedWhere.
(* src/parser/mod.rs:417 *)
Definition t_kw_while : g := GTok (MK KWhile) ExpectedWhile.
(* src/parser/mod.rs:420 *)
Definition t_left_angle : g := GTok (MK KLeftAngle) ExpectedLeftAngle.
(* src/parser/mod.rs:421 *)
Definition t_left_curly : g := GTok (MK KLeftCurly) ExpectedLeftCurly.
(* src/parser/mod.rs:422 *)
Definition t_left_paren : g := GTok (MK KLeftParen) ExpectedLeftParen.
(* src/parser/mod.rs:423 *)
Definition t_left_square : g := GTok (MK KLeftSquare) ExpectedLeftSquare.
(* src/parser/mod.rs:424 *)
Definition t_right_angle : g := GTok (MK KRightAngle) ExpectedRightAngle.
(* src/parser/mod.rs:425 *)
Definition t_right_curly : g := GTok (MK KRightCurly) ExpectedRightCurly.
(* src/parser/mod.rs:426 *)
Definition t_right_paren : g := GTok (MK KRightParen) ExpectedRightParen.
(* src/parser/mod.rs:427 *)
Definition t_right_square : g := GTok (MK KRightSquare) ExpectedRightSquare.
(* src/parser/mod.rs:430 *)
Definition t_ampersand : g := GTok (MK KAmpersand) ExpectedAmpersand.
(* src/parser/mod.rs:431 *)
Definition t_ampersand_equals : g := GTok (MK KAmpersandEquals) ExpectedAmpersandEquals.
(* src/parser/mod.rs:432 *)
Definition t_asterisk : g := GTok (MK KAsterisk) ExpectedAsterisk.
(* src/parser/mod.rs:433 *)
Definition t_at : g := GTok (MK KAt) ExpectedAt.
(* src/parser/mod.rs:434 *)
Definition t_bang : g := GTok (MK KBang) ExpectedBang.
(* src/parser/mod.rs:435 *)
Definition t_caret : g := GTok (MK KCaret) ExpectedCaret.
(* src/parser/mod.rs:436 *)
Definition t_caret_equals : g := GTok (MK KCaretEquals) ExpectedCaretEquals.
(* src/parser/mod.rs:437 *)
Definition t_colon : g := GTok (MK KColon) ExpectedColon.
(* src/parser/mod.rs:438 *)
Definition t_comma : g := GTok (MK KComma) ExpectedComma.
(* src/parser/mod.rs:439 *)
Definition t_divide_equals : g := GTok (MK KDivideEquals) ExpectedDivideEquals.
(* src/parser/mod.rs:440 *)
Definition t_double_ampersand : g := GTok (MK KDoubleAmpersand) ExpectedDoubleAmpersand.
(* src/parser/mod.rs:441 *)
Definition t_double_colon : g := GTok (MK KDoubleColon) ExpectedDoubleColon.
(* src/parser/mod.rs:442 *)
Definition t_double_equals : g := GTok (MK KDoubleEquals) ExpectedDoubleEquals.
(* src/parser/mod.rs:443 *)
Definition t_double_left_angle : g := GTok (MK KDoubleLeftAngle) ExpectedDoubleLeftAngle.
(* src/parser/mod.rs:444 *)
Definition t_double_period : g := GTok (MK KDoublePeriod) ExpectedDoublePeriod.
(* src/parser/mod.rs:445 *)
Definition t_double_period_equals : g := GTok (MK KDoublePeriodEquals) ExpectedDoublePeriodEquals.
(* src/parser/mod.rs:446 *)
Definition t_double_pipe : g := GTok (MK KDoublePipe) ExpectedDoublePipe.
(* src/parser/mod.rs:447 *)
Definition t_double_right_angle : g := GTok (MK KDoubleRightAngle) ExpectedDoubleRightAngle.
(* src/parser/mod.rs:448 *)
Definition t_equals : g := GTok (MK KEquals) ExpectedEquals.
(* src/parser/mod.rs:449 *)
Definition t_greater_than_or_equals : g := GTok (MK KGreaterThanOrEquals) ExpectedGreaterThanOrEquals.
(* src/parser/mod.rs:450 *)
Definition t_hash : g := GTok (MK KHash) ExpectedHash.
(* src/parser/mod.rs:451 *)
Definition t_less_than_or_equals : g := GTok (MK KLessThanOrEquals) ExpectedLessThanOrEquals.
(* src/parser/mod.rs:452 *)
Definition t_minus : g := GTok (MK KMinus) ExpectedMinus.
(* src/parser/mod.rs:453 *)
Definition t_minus_equals : g := GTok (MK KMinusEquals) ExpectedMinusEquals.
(* src/parser/mod.rs:454 *)
Definition t_not_equal : g := GTok (MK KNotEqual) ExpectedNotEqual.
(* src/parser/mod.rs:455 *)
Definition t_percent : g := GTok (MK KPercent) ExpectedPercent.
(* src/parser/mod.rs:456 *)
Definition t_percent_equals : g := GTok (MK KPercentEquals) ExpectedPercentEquals.
(* src/parser/mod.rs:457 *)
Definition t_period : g := GTok (MK KPeriod) ExpectedPeriod.
(* src/parser/mod.rs:458 *)
Definition t_pipe : g := GTok (MK KPipe) ExpectedPipe.
(* src/parser/mod.rs:459 *)
Definition t_pipe_equals : g := GTok (MK KPipeEquals) ExpectedPipeEquals.
(* src/parser/mod.rs:460 *)
Definition t_plus : g := GTok (MK KPlus) ExpectedPlus.
(* src/parser/mod.rs:461 *)
Definition t_plus_equals : g := GTok (MK KPlusEquals) ExpectedPlusEquals.
(* src/parser/mod.rs:462 *)
Definition t_question_mark : g := GTok (MK KQuestionMark) ExpectedQuestionMark.
(* src/parser/mod.rs:463 *)
Definition t_semicolon : g := GTok (MK KSemicolon) ExpectedSemicolon.
(* src/parser/mod.rs:464 *)
Definition t_shift_left_equals : g := GTok (MK KShiftLeftEquals) ExpectedShiftLeftEquals.
(* src/parser/mod.rs:465 *)
Definition t_shift_right_equals : g := GTok (MK KShiftRightEquals) ExpectedShiftRightEquals.
(* src/parser/mod.rs:466 *)
Definition t_slash : g := GTok (MK KSlash) ExpectedSlash.
(* src/parser/mod.rs:467 *)
Definition t_thick_arrow : g := GTok (MK KThickArrow) ExpectedThickArrow.
(* src/parser/mod.rs:468 *)
Definition t_thin_arrow : g := GTok (MK KThinArrow) ExpectedThinArrow.
(* src/parser/mod.rs:469 *)
Definition t_times_equals : g := GTok (MK KTimesEquals) ExpectedTimesEquals.
(* src/parser/mod.rs:470 *)
Definition t_triple_period : g := GTok (MK KTriplePeriod) ExpectedTriplePeriod.
(* src/parser/mod.rs:472 *)
Definition t_doc_comment_inner_block : g := GTok (MK KDocCommentInnerBlock) ExpectedDocCommentInnerBlock.
(* src/parser/mod.rs:473 *)
Definition t_doc_comment_inner_line : g := GTok (MK KDocCommentInnerLine) ExpectedDocCommentInnerLine.
(* src/parser/mod.rs:474 *)
Definition t_doc_comment_outer_block : g := GTok (MK KDocCommentOuterBlock) ExpectedDocCommentOuterBlock.
(* src/parser/mod.rs:475 *)
Definition t_doc_comment_outer_line : g := GTok (MK KDocCommentOuterLine) ExpectedDocCommentOuterLine.

(** * Parser functions *)
Definition table (n : nt) : g :=
  match n with
  (* src/parser/mod.rs:330-348 *)
  | N_item =>
      GAlt
        [(GSeq [(PVar "x", (GNT N_attribute_containing))] (BVariant "Item" "AttributeContaining" (BVar "x")));
         (GSeq [(PVar "x", (GNT N_p_const))] (BVariant "Item" "Const" (BVar "x")));
         (GSeq [(PVar "x", (GNT N_extern_crate))] (BVariant "Item" "ExternCrate" (BVar "x")));
         (GSeq [(PVar "x", (GNT N_extern_block))] (BVariant "Item" "ExternBlock" (BVar "x")));
         (GSeq [(PVar "x", (GNT N_function))] (BVariant "Item" "Function" (BVar "x")));
         (GSeq [(PVar "x", (GNT N_item_macro_call))] (BVariant "Item" "MacroCall" (BVar "x")));
         (GSeq [(PVar "x", (GNT N_module))] (BVariant "Item" "Module" (BVar "x")));
         (GSeq [(PVar "x", (GNT N_p_enum))] (BVariant "Item" "Enum" (BVar "x")));
         (GSeq [(PVar "x", (GNT N_p_impl))] (BVariant "Item" "Impl" (BVar "x")));
         (GSeq [(PVar "x", (GNT N_p_static))] (BVariant "Item" "Static" (BVar "x")));
         (GSeq [(PVar "x", (GNT N_p_struct))] (BVariant "Item" "Struct" (BVar "x")));
         (GSeq [(PVar "x", (GNT N_p_trait))] (BVariant "Item" "Trait" (BVar "x")));
         (GSeq [(PVar "x", (GNT N_p_union))] (BVariant "Item" "Union" (BVar "x")));
         (GSeq [(PVar "x", (GNT N_p_use))] (BVariant "Item" "Use" (BVar "x")));
         (GSeq [(PVar "x", (GNT N_type_alias))] (BVariant "Item" "TypeAlias" (BVar "x")))]
  (* src/parser/mod.rs:578-589 *)
  | N_function =>
      GSeq
        [((PVar "spt"), GPoint);
         ((PVar "header"), (GNT N_function_header));
         ((PVar "body"), (GNT N_block))]
        (BMk "Function" [("extent", (BEx "spt")); ("header", (BVar "header")); ("body", (BVar "body")); ("whitespace", BNil)])
  (* src/parser/mod.rs:591-614 *)
  | N_function_header =>
      GSeq
        [((PVar "spt"), GPoint);
         ((PVar "visibility"), (GOpt (GNT N_visibility)));
         ((PVar "qualifiers"), (GNT N_function_qualifiers));
         ((PVar "_"), t_kw_fn);
         ((PVar "name"), (GNT N_ident));
         ((PVar "generics"), (GOpt (GNT N_generic_declarations)));
         ((PVar "arguments"), (GNT N_function_arglist));
         ((PVar "return_type"), (GOpt (GNT N_function_return_type)));
         ((PVar "wheres"), (GOpt (GNT N_where_clause)))]
        (BMk "FunctionHeader" [("extent", (BEx "spt")); ("visibility", (BVar "visibility")); ("qualifiers", (BVar "qualifiers")); ("name", (BVar "name")); ("generics", (BVar "generics")); ("arguments", (BVar "arguments")); ("return_type", (BVar "return_type")); ("wheres", (BUnwrapNil (BVar "wheres"))); ("whitespace", BNil)])
  (* src/parser/mod.rs:618-645 *)
  | N_function_qualifiers =>
      GSeq
        [(PVar "spt", GPoint);
         (PVar "is_default", GOpt (GExt t_kw_default));
         (PVar "is_const", GOpt (GExt t_kw_const));
         (PVar "is_unsafe", GOpt (GExt t_kw_unsafe));
         (PVar "is_async", GOpt (GExt t_kw_async));
         (PVar "is_extern", GOpt (GNT N_function_qualifier_extern))]
        (BMk "FunctionQualifiers" [("extent", BEx "spt"); ("is_default", BVar "is_default"); ("is_const", BVar "is_const"); ("is_unsafe", BVar "is_unsafe"); ("is_async", BVar "is_async"); ("is_extern", BOptFst (BVar "is_extern")); ("abi", BOptSnd (BVar "is_extern")); ("whitespace", BNil)])
  (* src/parser/mod.rs:647-654 *)
  | N_function_qualifier_extern =>
      GSeq
        [((PVar "is_extern"), (GExt t_kw_extern));
         ((PVar "abi"), (GOpt (GNT N_string_literal)))]
        (BPair (BVar "is_extern") (BVar "abi"))
  (* src/parser/mod.rs:656-667 *)
  | N_ident =>
      GMapErr (GSeq [((PVar "extent"), (GAlt
        [t_kw_default;
         t_kw_self_ident;
         t_kw_dyn;
         t_kw_union;
         t_ident_normal]))] (BMk "Ident" [("extent", (BVar "extent"))])) ExpectedIdent
  (* src/parser/mod.rs:669-684 *)
  | N_generic_declarations =>
      GSeq
        [((PVar "spt"), GPoint);
         ((PVar "_"), t_left_angle);
         ((PVar "lifetimes"), (tailed_values BNil t_comma (attributed "GenericDeclarationLifetime" (GNT N_generic_declaration_lifetime))));
         ((PVar "types"), (tailed_values BNil t_comma (attributed "GenericDeclarationType" (GNT N_generic_declaration_type))));
         ((PVar "consts"), (tailed_values BNil t_comma (attributed "GenericDeclarationConst" (GNT N_generic_declaration_const))));
         ((PVar "_"), t_right_angle)]
        (BMk "GenericDeclarations" [("extent", (BEx "spt")); ("lifetimes", (BVar "lifetimes")); ("types", (BVar "types")); ("consts", (BVar "consts")); ("whitespace", BNil)])
  (* src/parser/mod.rs:686-697 *)
  | N_generic_declaration_lifetime =>
      GSeq
        [((PVar "spt"), GPoint);
         ((PVar "name"), (GNT N_lifetime));
         ((PVar "bounds"), (GOpt (GNT N_generic_declaration_lifetime_bounds)))]
        (BMk "GenericDeclarationLifetime" [("extent", (BEx "spt")); ("name", (BVar "name")); ("bounds", (BUnwrapNil (BVar "bounds"))); ("whitespace", BNil)])
  (* src/parser/mod.rs:699-704 *)
  | N_generic_declaration_lifetime_bounds =>
      GSeq
        [((PVar "_"), t_colon);
         ((PVar "bounds"), (tailed_values BNil t_plus (GNT N_lifetime)))]
        (BVar "bounds")
  (* src/parser/mod.rs:706-720 *)
  | N_generic_declaration_type =>
      GSeq
        [((PVar "spt"), GPoint);
         ((PVar "name"), (GNT N_ident));
         ((PVar "bounds"), (GOpt (GNT N_generic_declaration_type_bounds)));
         ((PVar "default"), (GOpt (GNT N_generic_declaration_type_default)))]
        (BMk "GenericDeclarationType" [("extent", (BEx "spt")); ("name", (BVar "name")); ("bounds", (BVar "bounds")); ("default", (BVar "default")); ("whitespace", BNil)])
  (* src/parser/mod.rs:722-727 *)
  | N_generic_declaration_type_bounds =>
      GSeq
        [((PVar "_"), t_colon);
         ((PVar "bounds"), (GNT N_trait_bounds))]
        (BVar "bounds")
  (* src/parser/mod.rs:729-734 *)
  | N_generic_declaration_type_default =>
      GSeq
        [((PVar "_"), t_equals);
         ((PVar "typ"), (GNT N_typ))]
        (BVar "typ")
  (* src/parser/mod.rs:736-749 *)
  | N_generic_declaration_const =>
      GSeq
        [((PVar "spt"), GPoint);
         ((PVar "_"), t_kw_const);
         ((PVar "name"), (GNT N_ident));
         ((PVar "_"), t_colon);
         ((PVar "typ"), (GNT N_typ))]
        (BMk "GenericDeclarationConst" [("extent", (BEx "spt")); ("name", (BVar "name")); ("typ", (BVar "typ")); ("whitespace", BNil)])
  (* src/parser/mod.rs:751-758 *)
  | N_function_arglist =>
      GSeq
        [((PVar "_"), t_left_paren);
         ((PVar "self_arg"), (GOpt (GSeq [(PVar "x", (GNT N_self_argument))] (BVariant "Argument" "SelfArgument" (BVar "x")))));
         ((PVar "args"), (tailed_values (BIntoAppend (BVar "self_arg")) t_comma (GNT N_function_argument)));
         ((PVar "_"), t_right_paren)]
        (BVar "args")
  (* src/parser/mod.rs:760-765 *)
  | N_self_argument =>
      GAlt
        [(GSeq [(PVar "x", (GNT N_self_argument_longhand))] (BVariant "SelfArgument" "Longhand" (BVar "x")));
         (GSeq [(PVar "x", (GNT N_self_argument_shorthand))] (BVariant "SelfArgument" "Shorthand" (BVar "x")))]
  (* src/parser/mod.rs:767-782 *)
  | N_self_argument_longhand =>
      GSeq
        [((PVar "spt"), GPoint);
         ((PVar "is_mut"), (GOpt t_kw_mut));
         ((PVar "name"), t_kw_self_ident);
         ((PVar "_"), t_colon);
         ((PVar "typ"), (GNT N_typ));
         ((PVar "_"), (GOpt t_comma))]
        (BMk "SelfArgumentLonghand" [("extent", (BEx "spt")); ("is_mut", (BVar "is_mut")); ("name", (BMk "Ident" [("extent", (BVar "name"))])); ("typ", (BVar "typ")); ("whitespace", BNil)])
  (* src/parser/mod.rs:784-796 *)
  | N_self_argument_shorthand =>
      GSeq
        [((PVar "spt"), GPoint);
         ((PVar "qualifier"), (GOpt (GNT N_self_argument_qualifier)));
         ((PVar "name"), t_kw_self_ident);
         ((PVar "_"), (GOpt t_comma))]
        (BMk "SelfArgumentShorthand" [("extent", (BEx "spt")); ("qualifier", (BVar "qualifier")); ("name", (BMk "Ident" [("extent", (BVar "name"))])); ("whitespace", BNil)])
  (* src/parser/mod.rs:798-805 *)
  | N_self_argument_qualifier =>
      GAlt
        [(GSeq [(PVar "x", (GNT N_typ_reference_kind))] (BVariant "SelfArgumentShorthandQualifier" "Reference" (BVar "x")));
         (GSeq [(PVar "x", (GExt t_kw_mut))] (BVariant "SelfArgumentShorthandQualifier" "Mut" (BVar "x")))]
  (* src/parser/mod.rs:807-819 *)
  | N_function_argument =>
      GSeq
        [((PVar "spt"), GPoint);
         ((PVar "name"), (GNT N_pattern));
         ((PVar "_"), t_colon);
         ((PVar "typ"), (GNT N_typ))]
        (BVariant "Argument" "Named" (BMk "NamedArgument" [("extent", (BEx "spt")); ("name", (BVar "name")); ("typ", (BVar "typ")); ("whitespace", BNil)]))
  (* src/parser/mod.rs:821-826 *)
  | N_function_return_type =>
      GSeq
        [((PVar "_"), t_thin_arrow);
         ((PVar "typ"), (GNT N_typ))]
        (BVar "typ")
  (* src/parser/mod.rs:828-833 *)
  | N_where_clause =>
      GSeq
        [((PVar "_"), t_kw_where);
         ((PVar "w"), (tailed1_values t_comma (GNT N_where_clause_item)))]
        (BVar "w")
  (* src/parser/mod.rs:835-846 *)
  | N_where_clause_item =>
      GSeq
        [((PVar "spt"), GPoint);
         ((PVar "hrtbs"), (GOpt (GNT N_higher_ranked_trait_bounds)));
         ((PVar "kind"), (GNT N_where_clause_kind))]
        (BMk "Where" [("extent", (BEx "spt")); ("higher_ranked_trait_bounds", (BUnwrapNil (BVar "hrtbs"))); ("kind", (BVar "kind")); ("whitespace", BNil)])
  (* src/parser/mod.rs:848-853 *)
  | N_where_clause_kind =>
      GAlt
        [(GSeq [(PVar "x", (GNT N_where_lifetime))] (BVariant "WhereKind" "Lifetime" (BVar "x")));
         (GSeq [(PVar "x", (GNT N_where_type))] (BVariant "WhereKind" "Type" (BVar "x")))]
  (* src/parser/mod.rs:855-866 *)
  | N_where_lifetime =>
      GSeq
        [((PVar "spt"), GPoint);
         ((PVar "name"), (GNT N_lifetime));
         ((PVar "bounds"), (GNT N_generic_declaration_lifetime_bounds))]
        (BMk "WhereLifetime" [("extent", (BEx "spt")); ("name", (BVar "name")); ("bounds", (BVar "bounds")); ("whitespace", BNil)])
  (* src/parser/mod.rs:868-879 *)
  | N_where_type =>
      GSeq
        [((PVar "spt"), GPoint);
         ((PVar "name"), (GNT N_typ));
         ((PVar "bounds"), (GNT N_generic_declaration_type_bounds))]
        (BMk "WhereType" [("extent", (BEx "spt")); ("name", (BVar "name")); ("bounds", (BVar "bounds")); ("whitespace", BNil)])
  (* src/parser/mod.rs:881-890 *)
  | N_trait_bounds =>
      GSeq
        [((PVar "spt"), GPoint);
         ((PVar "types"), (tailed_values BNil t_plus (GNT N_trait_bound)))]
        (BMk "TraitBounds" [("extent", (BEx "spt")); ("types", (BVar "types")); ("whitespace", BNil)])
  (* src/parser/mod.rs:892-898 *)
  | N_trait_bound =>
      GAlt
        [(GSeq [(PVar "x", (GNT N_trait_bound_lifetime))] (BVariant "TraitBound" "Lifetime" (BVar "x")));
         (GSeq [(PVar "x", (GNT N_trait_bound_normal))] (BVariant "TraitBound" "Normal" (BVar "x")));
         (GSeq [(PVar "x", (GNT N_trait_bound_relaxed))] (BVariant "TraitBound" "Relaxed" (BVar "x")))]
  (* src/parser/mod.rs:900-909 *)
  | N_trait_bound_lifetime =>
      GSeq
        [((PVar "spt"), GPoint);
         ((PVar "lifetime"), (GNT N_lifetime))]
        (BMk "TraitBoundLifetime" [("extent", (BEx "spt")); ("lifetime", (BVar "lifetime")); ("whitespace", BNil)])
  (* src/parser/mod.rs:911-920 *)
  | N_trait_bound_normal =>
      GSeq
        [((PVar "spt"), GPoint);
         ((PVar "typ"), (GNT N_trait_bound_normal_child))]
        (BMk "TraitBoundNormal" [("extent", (BEx "spt")); ("typ", (BVar "typ")); ("whitespace", BNil)])
  (* src/parser/mod.rs:922-929 *)
  | N_trait_bound_normal_child =>
      GAlt
        [(GSeq [(PVar "x", (GNT N_typ_named))] (BVariant "TraitBoundType" "Named" (BVar "x")));
         (GSeq [(PVar "x", (GNT N_typ_higher_ranked_trait_bounds))] (BVariant "TraitBoundType" "HigherRankedTraitBounds" (BVar "x")))]
  (* src/parser/mod.rs:931-937 *)
  | N_trait_bound_relaxed =>
      GSeq
        [((PVar "spt"), GPoint);
         ((PVar "_"), t_question_mark);
         ((PVar "typ"), (GNT N_trait_bound_normal_child))]
        (BMk "TraitBoundRelaxed" [("extent", (BEx "spt")); ("typ", (BVar "typ")); ("whitespace", BNil)])
  (* src/parser/mod.rs:939-959 *)
  | N_block =>
      GSeq
        [(PVar "spt", GPoint);
         (PVar "_", t_left_curly);
         (PPair (PVar "stmts") (PVar "term"), implicit_values_terminated t_semicolon (GNT N_statement));
         (PVar "_", t_right_curly)]
        (BMk "Block" [("extent", BEx "spt"); ("statements", BStmts (BVar "stmts") (BVar "term")); ("expression", BTrailing (BVar "stmts") (BVar "term")); ("whitespace", BNil)])
  (* src/parser/mod.rs:961-967 *)
  | N_statement =>
      GAlt
        [(GSeq [(PVar "x", (attributed "Item" (GNT N_item)))] (BVariant "Statement" "Item" (BVar "x")));
         (GSeq [(PVar "x", (GNT N_statement_expression))] (BVariant "Statement" "Expression" (BVar "x")));
         (GSeq [(PVar "x", (GNT N_statement_empty))] (BVariant "Statement" "Empty" (BVar "x")))]
  (* src/parser/mod.rs:969-974 *)
  | N_statement_empty =>
      GSeq
        [((PVar "spt"), GPoint);
         ((PVar "_"), (GPeek t_semicolon))]
        (BEx "spt")
  (* src/parser/mod.rs:988-1002 *)
  | N_item_macro_call =>
      GSeq
        [((PVar "spt"), GPoint);
         ((PVar "name"), (GNT N_pathed_ident));
         ((PVar "_"), t_bang);
         ((PVar "arg"), (GOpt (GNT N_ident)));
         ((PVar "args"), (GNT N_item_macro_call_args))]
        (BMk "MacroCall" [("extent", (BEx "spt")); ("name", (BVar "name")); ("arg", (BVar "arg")); ("args", (BVar "args")); ("whitespace", BNil)])
  (* src/parser/mod.rs:1004-1010 *)
  | N_item_macro_call_args =>
      GAlt
        [(GSeq [(PVar "x", (GNT N_item_macro_call_paren))] (BVariant "MacroCallArgs" "Paren" (BVar "x")));
         (GSeq [(PVar "x", (GNT N_item_macro_call_square))] (BVariant "MacroCallArgs" "Square" (BVar "x")));
         (GSeq [(PVar "x", (GNT N_item_macro_call_curly))] (BVariant "MacroCallArgs" "Curly" (BVar "x")))]
  (* src/parser/mod.rs:1012-1019 *)
  | N_item_macro_call_paren =>
      GSeq
        [((PVar "_"), t_left_paren);
         ((PVar "args"), (GNested KLeftParen KRightParen));
         ((PVar "_"), t_right_paren);
         ((PVar "_"), t_semicolon)]
        (BVar "args")
  (* src/parser/mod.rs:1021-1028 *)
  | N_item_macro_call_square =>
      GSeq
        [((PVar "_"), t_left_square);
         ((PVar "args"), (GNested KLeftSquare KRightSquare));
         ((PVar "_"), t_right_square);
         ((PVar "_"), t_semicolon)]
        (BVar "args")
  (* src/parser/mod.rs:1030-1036 *)
  | N_item_macro_call_curly =>
      GSeq
        [((PVar "_"), t_left_curly);
         ((PVar "args"), (GNested KLeftCurly KRightCurly));
         ((PVar "_"), t_right_curly)]
        (BVar "args")
  (* src/parser/mod.rs:1038-1041 *)
  | N_character_literal =>
      GSeq [((PVar "extent"), t_character)] (BMk "Character" [("extent", (BVar "extent")); ("value", (BVar "extent"))])
  (* src/parser/mod.rs:1043-1049 *)
  | N_string_literal =>
      GAlt
        [(GSeq [((PVar "extent"), t_string)] (BMk "String" [("extent", (BVar "extent")); ("value", (BVar "extent"))]));
         (GSeq [((PVar "extent"), t_string_raw)] (BMk "String" [("extent", (BVar "extent")); ("value", (BVar "extent"))]))]
  (* src/parser/mod.rs:1051-1055 *)
  | N_number_literal =>
      GAlt
        [(GSeq [(PVar "x", t_number_normal)] (BNumber (BVar "x")))]
  (* src/parser/mod.rs:1078-1088 *)
  | N_path =>
      GSeq
        [((PVar "spt"), GPoint);
         ((PVar "_"), (GOpt t_double_colon));
         ((PVar "components"), (tailed1_values t_double_colon (GNT N_ident)))]
        (BMk "Path" [("extent", (BEx "spt")); ("components", (BVar "components")); ("whitespace", BNil)])
  (* src/parser/mod.rs:1090-1100 *)
  | N_pathed_ident =>
      GSeq
        [((PVar "spt"), GPoint);
         ((PVar "_"), (GOpt t_double_colon));
         ((PVar "components"), (tailed1_values t_double_colon (GNT N_path_component)))]
        (BMk "PathedIdent" [("extent", (BEx "spt")); ("components", (BVar "components")); ("whitespace", BNil)])
  (* src/parser/mod.rs:1102-1113 *)
  | N_path_component =>
      GSeq
        [((PVar "spt"), GPoint);
         ((PVar "ident"), (GNT N_path_member));
         ((PVar "turbofish"), (GOpt (GNT N_turbofish)))]
        (BMk "PathComponent" [("extent", (BEx "spt")); ("ident", (BVar "ident")); ("turbofish", (BVar "turbofish")); ("whitespace", BNil)])
  (* src/parser/mod.rs:1115-1129 *)
  | N_turbofish =>
      GSeq
        [((PVar "spt"), GPoint);
         ((PVar "_"), t_double_colon);
         ((PVar "_"), t_left_angle);
         ((PVar "lifetimes"), (tailed_values BNil t_comma (GNT N_lifetime)));
         ((PVar "types"), (tailed_values BNil t_comma (GNT N_typ)));
         ((PVar "_"), t_right_angle)]
        (BMk "Turbofish" [("extent", (BEx "spt")); ("lifetimes", (BVar "lifetimes")); ("types", (BVar "types")); ("whitespace", BNil)])
  (* src/parser/mod.rs:1131-1142 *)
  | N_pattern =>
      GSeq
        [((PVar "spt"), GPoint);
         ((PVar "name"), (GOpt (GNT N_pattern_name)));
         ((PVar "kind"), (GNT N_pattern_kind))]
        (BMk "Pattern" [("extent", (BEx "spt")); ("name", (BVar "name")); ("kind", (BVar "kind")); ("whitespace", BNil)])
  (* src/parser/mod.rs:1144-1152 *)
  | N_pattern_name =>
      GSeq
        [((PVar "spt"), GPoint);
         ((PVar "is_ref"), (GOpt (GExt t_kw_ref)));
         ((PVar "is_mut"), (GOpt (GExt t_kw_mut)));
         ((PVar "name"), (GNT N_ident));
         ((PVar "_"), t_at)]
        (BMk "PatternName" [("extent", (BExTo "spt" "spt")); ("is_ref", (BVar "is_ref")); ("is_mut", (BVar "is_mut")); ("name", (BVar "name")); ("whitespace", BNil)])
  (* src/parser/mod.rs:1154-1173 *)
  | N_pattern_kind =>
      GAlt
        [(GSeq [(PVar "x", (GNT N_pattern_range_exclusive))] (BVariant "PatternKind" "RangeExclusive" (BVar "x")));
         (GSeq [(PVar "x", (GNT N_pattern_range_inclusive))] (BVariant "PatternKind" "RangeInclusive" (BVar "x")));
         (GSeq [(PVar "x", (GNT N_pattern_char))] (BVariant "PatternKind" "Character" (BVar "x")));
         (GSeq [(PVar "x", (GNT N_pattern_byte))] (BVariant "PatternKind" "Byte" (BVar "x")));
         (GSeq [(PVar "x", (GNT N_pattern_number))] (BVariant "PatternKind" "Number" (BVar "x")));
         (GSeq [(PVar "x", (GNT N_pattern_reference))] (BVariant "PatternKind" "Reference" (BVar "x")));
         (GSeq [(PVar "x", (GNT N_pattern_byte_string))] (BVariant "PatternKind" "ByteString" (BVar "x")));
         (GSeq [(PVar "x", (GNT N_pattern_string))] (BVariant "PatternKind" "String" (BVar "x")));
         (GSeq [(PVar "x", (GNT N_pattern_struct))] (BVariant "PatternKind" "Struct" (BVar "x")));
         (GSeq [(PVar "x", (GNT N_pattern_tuple))] (BVariant "PatternKind" "Tuple" (BVar "x")));
         (GSeq [(PVar "x", (GNT N_pattern_slice))] (BVariant "PatternKind" "Slice" (BVar "x")));
         (GSeq [(PVar "x", (GNT N_pattern_macro_call))] (BVariant "PatternKind" "MacroCall" (BVar "x")));
         (GSeq [(PVar "x", (GNT N_pattern_box))] (BVariant "PatternKind" "Box" (BVar "x")));
         (GSeq [(PVar "x", (GNT N_pattern_ident))] (BVariant "PatternKind" "Ident" (BVar "x")))]
  (* src/parser/mod.rs:1175-1190 *)
  | N_pattern_ident =>
      GSeq
        [((PVar "spt"), GPoint);
         ((PVar "is_ref"), (GOpt (GExt t_kw_ref)));
         ((PVar "is_mut"), (GOpt (GExt t_kw_mut)));
         ((PVar "ident"), (GNT N_pathed_ident));
         ((PVar "tuple"), (GOpt (GNT N_pattern_tuple)))]
        (BMk "PatternIdent" [("extent", (BEx "spt")); ("is_ref", (BVar "is_ref")); ("is_mut", (BVar "is_mut")); ("ident", (BVar "ident")); ("tuple", (BVar "tuple")); ("whitespace", BNil)])
  (* src/parser/mod.rs:1192-1203 *)
  | N_pattern_tuple =>
      GSeq
        [((PVar "spt"), GPoint);
         ((PVar "_"), t_left_paren);
         ((PVar "members"), (tailed_values BNil t_comma (GNT N_pattern_tuple_member)));
         ((PVar "_"), t_right_paren)]
        (BMk "PatternTuple" [("extent", (BEx "spt")); ("members", (BVar "members")); ("whitespace", BNil)])
  (* src/parser/mod.rs:1205-1212 *)
  | N_pattern_tuple_member =>
      GAlt
        [(GSeq [(PVar "x", (GNT N_pattern))] (BVariant "PatternTupleMember" "Pattern" (BVar "x")));
         (GSeq [(PVar "x", (GExt t_double_period))] (BVariant "PatternTupleMember" "Wildcard" (BVar "x")))]
  (* src/parser/mod.rs:1214-1225 *)
  | N_pattern_slice =>
      GSeq
        [((PVar "spt"), GPoint);
         ((PVar "_"), t_left_square);
         ((PVar "members"), (tailed_values BNil t_comma (GNT N_pattern_slice_member)));
         ((PVar "_"), t_right_square)]
        (BMk "PatternSlice" [("extent", (BEx "spt")); ("members", (BVar "members")); ("whitespace", BNil)])
  (* src/parser/mod.rs:1227-1235 *)
  | N_pattern_slice_member =>
      GAlt
        [(GSeq [(PVar "x", (GNT N_pattern_slice_subslice))] (BVariant "PatternSliceMember" "Subslice" (BVar "x")));
         (GSeq [(PVar "x", (GNT N_pattern))] (BVariant "PatternSliceMember" "Pattern" (BVar "x")));
         (GSeq [(PVar "x", (GExt t_double_period))] (BVariant "PatternSliceMember" "Wildcard" (BVar "x")))]
  (* src/parser/mod.rs:1237-1252 *)
  | N_pattern_slice_subslice =>
      GSeq
        [((PVar "spt"), GPoint);
         ((PVar "is_ref"), (GOpt t_kw_ref));
         ((PVar "is_mut"), (GOpt t_kw_mut));
         ((PVar "name"), (GNT N_ident));
         ((PVar "_"), t_at);
         ((PVar "_"), t_double_period)]
        (BMk "PatternSliceSubslice" [("extent", (BEx "spt")); ("is_ref", (BVar "is_ref")); ("is_mut", (BVar "is_mut")); ("name", (BVar "name")); ("whitespace", BNil)])
  (* src/parser/mod.rs:1254-1269 *)
  | N_pattern_struct =>
      GSeq
        [((PVar "spt"), GPoint);
         ((PVar "name"), (GNT N_pathed_ident));
         ((PVar "_"), t_left_curly);
         ((PVar "fields"), (tailed_values BNil t_comma (GNT N_pattern_struct_field)));
         ((PVar "wildcard"), (GOpt t_double_period));
         ((PVar "_"), t_right_curly)]
        (BMk "PatternStruct" [("extent", (BEx "spt")); ("name", (BVar "name")); ("fields", (BVar "fields")); ("wildcard", (BIsSome (BVar "wildcard"))); ("whitespace", BNil)])
  (* src/parser/mod.rs:1271-1278 *)
  | N_pattern_struct_field =>
      GAlt
        [(GSeq [(PVar "x", (GNT N_pattern_struct_field_long))] (BVariant "PatternStructField" "Long" (BVar "x")));
         (GSeq [(PVar "x", (GSeq [((PVar "ident"), (GNT N_pattern_ident))] (BMk "PatternStructFieldShort" [("extent", (BField "extent" (BVar "ident"))); ("ident", (BVar "ident")); ("whitespace", BNil)])))] (BVariant "PatternStructField" "Short" (BVar "x")))]
  (* src/parser/mod.rs:1280-1289 *)
  | N_pattern_struct_field_long =>
      GSeq
        [((PVar "spt"), GPoint);
         ((PVar "name"), (GNT N_ident));
         ((PVar "_"), t_colon);
         ((PVar "pattern"), (GNT N_pattern))]
        (BMk "PatternStructFieldLong" [("extent", (BEx "spt")); ("name", (BVar "name")); ("pattern", (BVar "pattern")); ("whitespace", BNil)])
  (* src/parser/mod.rs:1291-1293 *)
  | N_pattern_byte =>
      GSeq [((PVar "value"), (GNT N_expr_byte))] (BMk "PatternByte" [("extent", (BField "extent" (BVar "value"))); ("value", (BVar "value"))])
  (* src/parser/mod.rs:1295-1297 *)
  | N_pattern_char =>
      GSeq [((PVar "value"), (GNT N_character_literal))] (BMk "PatternCharacter" [("extent", (BField "extent" (BVar "value"))); ("value", (BVar "value"))])
  (* src/parser/mod.rs:1299-1301 *)
  | N_pattern_byte_string =>
      GSeq [((PVar "value"), (GNT N_expr_byte_string))] (BMk "PatternByteString" [("extent", (BField "extent" (BVar "value"))); ("value", (BVar "value"))])
  (* src/parser/mod.rs:1303-1305 *)
  | N_pattern_string =>
      GSeq [((PVar "value"), (GNT N_string_literal))] (BMk "PatternString" [("extent", (BField "extent" (BVar "value"))); ("value", (BVar "value"))])
  (* src/parser/mod.rs:1307-1318 *)
  | N_pattern_number =>
      GSeq
        [((PVar "spt"), GPoint);
         ((PVar "is_negative"), (GOpt t_minus));
         ((PVar "value"), (GNT N_number_literal))]
        (BMk "PatternNumber" [("extent", (BEx "spt")); ("is_negative", (BVar "is_negative")); ("value", (BVar "value")); ("whitespace", BNil)])
  (* src/parser/mod.rs:1320-1332 *)
  | N_pattern_reference =>
      GSeq
        [((PVar "spt"), GPoint);
         ((PVar "_"), t_ampersand);
         ((PVar "is_mut"), (GOpt (GExt t_kw_mut)));
         ((PVar "pattern"), (GNT N_pattern))]
        (BMk "PatternReference" [("extent", (BEx "spt")); ("is_mut", (BVar "is_mut")); ("pattern", (BVar "pattern")); ("whitespace", BNil)])
  (* src/parser/mod.rs:1334-1344 *)
  | N_pattern_box =>
      GSeq
        [((PVar "spt"), GPoint);
         ((PVar "_"), t_kw_box);
         ((PVar "pattern"), (GNT N_pattern))]
        (BMk "PatternBox" [("extent", (BEx "spt")); ("pattern", (BVar "pattern")); ("whitespace", BNil)])
  (* src/parser/mod.rs:1346-1360 *)
  | N_pattern_range_exclusive =>
      GSeq
        [((PVar "spt"), GPoint);
         ((PVar "start"), (GNT N_pattern_range_component));
         ((PVar "_"), t_double_period);
         ((PVar "end"), (GNT N_pattern_range_component))]
        (BMk "PatternRangeExclusive" [("extent", (BEx "spt")); ("start", (BVar "start")); ("end", (BVar "end")); ("whitespace", BNil)])
  (* src/parser/mod.rs:1362-1369 *)
  | N_range_inclusive_operator =>
      GAlt
        [(GSeq [(PVar "x", t_triple_period)] (BVariant "RangeInclusiveOperator" "Legacy" (BVar "x")));
         (GSeq [(PVar "x", t_double_period_equals)] (BVariant "RangeInclusiveOperator" "Recommended" (BVar "x")))]
  (* src/parser/mod.rs:1371-1386 *)
  | N_pattern_range_inclusive =>
      GSeq
        [((PVar "spt"), GPoint);
         ((PVar "start"), (GNT N_pattern_range_component));
         ((PVar "operator"), (GNT N_range_inclusive_operator));
         ((PVar "end"), (GNT N_pattern_range_component))]
        (BMk "PatternRangeInclusive" [("extent", (BEx "spt")); ("start", (BVar "start")); ("operator", (BVar "operator")); ("end", (BVar "end")); ("whitespace", BNil)])
  (* src/parser/mod.rs:1388-1395 *)
  | N_pattern_range_component =>
      GAlt
        [(GSeq [(PVar "x", (GNT N_pathed_ident))] (BVariant "PatternRangeComponent" "Ident" (BVar "x")));
         (GSeq [(PVar "x", (GNT N_character_literal))] (BVariant "PatternRangeComponent" "Character" (BVar "x")));
         (GSeq [(PVar "x", (GNT N_expr_byte))] (BVariant "PatternRangeComponent" "Byte" (BVar "x")));
         (GSeq [(PVar "x", (GNT N_pattern_number))] (BVariant "PatternRangeComponent" "Number" (BVar "x")))]
  (* src/parser/mod.rs:1397-1403 *)
  | N_pattern_macro_call =>
      GSeq [((PVar "value"), (GNT N_expr_macro_call))] (BMk "PatternMacroCall" [("extent", (BField "extent" (BVar "value"))); ("value", (BVar "value")); ("whitespace", BNil)])
  (* src/parser/mod.rs:1405-1422 *)
  | N_p_struct =>
      GSeq
        [((PVar "spt"), GPoint);
         ((PVar "visibility"), (GOpt (GNT N_visibility)));
         ((PVar "_"), t_kw_struct);
         ((PVar "name"), (GNT N_ident));
         ((PVar "generics"), (GOpt (GNT N_generic_declarations)));
         ((PPair (PVar "body") (PVar "wheres")), (GNT N_struct_defn_body))]
        (BMk "Struct" [("extent", (BEx "spt")); ("visibility", (BVar "visibility")); ("name", (BVar "name")); ("generics", (BVar "generics")); ("wheres", (BUnwrapNil (BVar "wheres"))); ("body", (BVar "body")); ("whitespace", BNil)])
  (* src/parser/mod.rs:1424-1432 *)
  | N_struct_defn_body =>
      GAlt
        [(GSeq [((PPair (PVar "b") (PVar "w")), (GNT N_struct_defn_body_brace))] (BPair (BVariant "StructDefinitionBody" "Brace" (BVar "b")) (BVar "w")));
         (GSeq [((PPair (PVar "b") (PVar "w")), (GNT N_struct_defn_body_tuple))] (BPair (BVariant "StructDefinitionBody" "Tuple" (BVar "b")) (BVar "w")));
         (GSeq [((PVar "b"), (GExt t_semicolon))] (BPair (BVariant "StructDefinitionBody" "Empty" (BVar "b")) BNone))]
  (* src/parser/mod.rs:1434-1441 *)
  | N_struct_defn_body_brace =>
      GSeq
        [((PVar "wheres"), (GOpt (GNT N_where_clause)));
         ((PVar "body"), (GNT N_struct_defn_body_brace_only))]
        (BPair (BVar "body") (BVar "wheres"))
  (* src/parser/mod.rs:1443-1452 *)
  | N_struct_defn_body_brace_only =>
      GSeq
        [((PVar "spt"), GPoint);
         ((PVar "_"), t_left_curly);
         ((PVar "fields"), (tailed_values BNil t_comma (attributed "StructDefinitionFieldNamed" (GNT N_struct_defn_field))));
         ((PVar "_"), t_right_curly)]
        (BMk "StructDefinitionBodyBrace" [("extent", (BEx "spt")); ("fields", (BVar "fields")); ("whitespace", BNil)])
  (* src/parser/mod.rs:1454-1463 *)
  | N_struct_defn_body_tuple =>
      GSeq
        [((PVar "spt"), GPoint);
         ((PVar "fields"), (GNT N_struct_defn_body_tuple_only));
         ((PVar "wheres"), (GOpt (GNT N_where_clause)));
         ((PVar "_"), t_semicolon)]
        (BPair (BMk "StructDefinitionBodyTuple" [("extent", (BEx "spt")); ("fields", (BVar "fields")); ("whitespace", BNil)]) (BVar "wheres"))
  (* src/parser/mod.rs:1465-1471 *)
  | N_struct_defn_body_tuple_only =>
      GSeq
        [((PVar "_"), t_left_paren);
         ((PVar "types"), (tailed_values BNil t_comma (attributed "StructDefinitionFieldUnnamed" (GNT N_tuple_defn_field))));
         ((PVar "_"), t_right_paren)]
        (BVar "types")
  (* src/parser/mod.rs:1473-1484 *)
  | N_tuple_defn_field =>
      GSeq
        [((PVar "spt"), GPoint);
         ((PVar "visibility"), (GOpt (GNT N_visibility)));
         ((PVar "typ"), (GNT N_typ))]
        (BMk "StructDefinitionFieldUnnamed" [("extent", (BEx "spt")); ("visibility", (BVar "visibility")); ("typ", (BVar "typ")); ("whitespace", BNil)])
  (* src/parser/mod.rs:1486-1500 *)
  | N_struct_defn_field =>
      GSeq
        [((PVar "spt"), GPoint);
         ((PVar "visibility"), (GOpt (GNT N_visibility)));
         ((PVar "name"), (GNT N_ident));
         ((PVar "_"), t_colon);
         ((PVar "typ"), (GNT N_typ))]
        (BMk "StructDefinitionFieldNamed" [("extent", (BEx "spt")); ("visibility", (BVar "visibility")); ("name", (BVar "name")); ("typ", (BVar "typ")); ("whitespace", BNil)])
  (* src/parser/mod.rs:1502-1522 *)
  | N_p_union =>
      GSeq
        [((PVar "spt"), GPoint);
         ((PVar "visibility"), (GOpt (GNT N_visibility)));
         ((PVar "_"), t_kw_union);
         ((PVar "name"), (GNT N_ident));
         ((PVar "generics"), (GOpt (GNT N_generic_declarations)));
         ((PVar "wheres"), (GOpt (GNT N_where_clause)));
         ((PVar "_"), t_left_curly);
         ((PVar "fields"), (tailed_values BNil t_comma (attributed "StructDefinitionFieldNamed" (GNT N_struct_defn_field))));
         ((PVar "_"), t_right_curly)]
        (BMk "Union" [("extent", (BEx "spt")); ("visibility", (BVar "visibility")); ("name", (BVar "name")); ("generics", (BVar "generics")); ("wheres", (BUnwrapNil (BVar "wheres"))); ("fields", (BVar "fields")); ("whitespace", BNil)])
  (* src/parser/mod.rs:1524-1544 *)
  | N_p_enum =>
      GSeq
        [((PVar "spt"), GPoint);
         ((PVar "visibility"), (GOpt (GNT N_visibility)));
         ((PVar "_"), t_kw_enum);
         ((PVar "name"), (GNT N_ident));
         ((PVar "generics"), (GOpt (GNT N_generic_declarations)));
         ((PVar "wheres"), (GOpt (GNT N_where_clause)));
         ((PVar "_"), t_left_curly);
         ((PVar "variants"), (tailed_values BNil t_comma (attributed "EnumVariant" (GNT N_enum_variant))));
         ((PVar "_"), t_right_curly)]
        (BMk "Enum" [("extent", (BEx "spt")); ("visibility", (BVar "visibility")); ("name", (BVar "name")); ("generics", (BVar "generics")); ("wheres", (BUnwrapNil (BVar "wheres"))); ("variants", (BVar "variants")); ("whitespace", BNil)])
  (* src/parser/mod.rs:1546-1557 *)
  | N_enum_variant =>
      GSeq
        [((PVar "spt"), GPoint);
         ((PVar "name"), (GNT N_ident));
         ((PVar "body"), (GNT N_enum_variant_body))]
        (BMk "EnumVariant" [("extent", (BEx "spt")); ("name", (BVar "name")); ("body", (BVar "body")); ("whitespace", BNil)])
  (* src/parser/mod.rs:1559-1565 *)
  | N_enum_variant_body =>
      GAlt
        [(GSeq [(PVar "x", (GNT N_struct_defn_body_tuple_only))] (BVariant "EnumVariantBody" "Tuple" (BVar "x")));
         (GSeq [(PVar "x", (GNT N_struct_defn_body_brace_only))] (BVariant "EnumVariantBody" "Struct" (BVar "x")));
         (GSeq [(PVar "x", (GOpt (GNT N_enum_discriminant)))] (BVariant "EnumVariantBody" "Unit" (BVar "x")))]
  (* src/parser/mod.rs:1567-1572 *)
  | N_enum_discriminant =>
      GSeq
        [((PVar "_"), t_equals);
         ((PVar "value"), (GNT N_expression))]
        (BVar "value")
  (* src/parser/mod.rs:1574-1600 *)
  | N_p_trait =>
      GSeq
        [((PVar "spt"), GPoint);
         ((PVar "visibility"), (GOpt (GNT N_visibility)));
         ((PVar "is_unsafe"), (GOpt t_kw_unsafe));
         ((PVar "is_auto"), (GOpt t_kw_auto));
         ((PVar "_"), t_kw_trait);
         ((PVar "name"), (GNT N_ident));
         ((PVar "generics"), (GOpt (GNT N_generic_declarations)));
         ((PVar "bounds"), (GOpt (GNT N_generic_declaration_type_bounds)));
         ((PVar "wheres"), (GOpt (GNT N_where_clause)));
         ((PVar "_"), t_left_curly);
         ((PVar "members"), (GMany (attributed "TraitMember" (GNT N_trait_impl_member))));
         ((PVar "_"), t_right_curly)]
        (BMk "Trait" [("extent", (BEx "spt")); ("visibility", (BVar "visibility")); ("is_unsafe", (BVar "is_unsafe")); ("is_auto", (BVar "is_auto")); ("name", (BVar "name")); ("generics", (BVar "generics")); ("bounds", (BVar "bounds")); ("wheres", (BUnwrapNil (BVar "wheres"))); ("members", (BVar "members")); ("whitespace", BNil)])
  (* src/parser/mod.rs:1603-1610 *)
  | N_trait_impl_member =>
      GAlt
        [(GSeq [(PVar "x", (GNT N_trait_member_function))] (BVariant "TraitMember" "Function" (BVar "x")));
         (GSeq [(PVar "x", (GNT N_trait_member_type))] (BVariant "TraitMember" "Type" (BVar "x")));
         (GSeq [(PVar "x", (GNT N_trait_member_const))] (BVariant "TraitMember" "Const" (BVar "x")));
         (GSeq [(PVar "x", (GNT N_item_macro_call))] (BVariant "TraitMember" "MacroCall" (BVar "x")))]
  (* src/parser/mod.rs:1612-1623 *)
  | N_trait_member_function =>
      GSeq
        [((PVar "spt"), GPoint);
         ((PVar "header"), (GNT N_trait_impl_function_header));
         ((PVar "body"), (GNT N_trait_impl_function_body))]
        (BMk "TraitMemberFunction" [("extent", (BEx "spt")); ("header", (BVar "header")); ("body", (BVar "body")); ("whitespace", BNil)])
  (* src/parser/mod.rs:1625-1640 *)
  | N_trait_member_type =>
      GSeq
        [((PVar "spt"), GPoint);
         ((PVar "_"), t_kw_type);
         ((PVar "name"), (GNT N_ident));
         ((PVar "bounds"), (GOpt (GNT N_generic_declaration_type_bounds)));
         ((PVar "default"), (GOpt (GNT N_generic_declaration_type_default)));
         ((PVar "_"), t_semicolon)]
        (BMk "TraitMemberType" [("extent", (BEx "spt")); ("name", (BVar "name")); ("bounds", (BVar "bounds")); ("default", (BVar "default")); ("whitespace", BNil)])
  (* src/parser/mod.rs:1642-1652 *)
  | N_trait_member_const =>
      GSeq
        [((PVar "spt"), GPoint);
         ((PVar "_"), t_kw_const);
         ((PVar "name"), (GNT N_ident));
         ((PVar "_"), t_colon);
         ((PVar "typ"), (GNT N_typ));
         ((PVar "value"), (GOpt (GNT N_trait_member_const_value)));
         ((PVar "_"), t_semicolon)]
        (BMk "TraitMemberConst" [("extent", (BEx "spt")); ("name", (BVar "name")); ("typ", (BVar "typ")); ("value", (BVar "value")); ("whitespace", BNil)])
  (* src/parser/mod.rs:1654-1659 *)
  | N_trait_member_const_value =>
      GSeq
        [((PVar "_"), t_equals);
         ((PVar "value"), (GNT N_expression))]
        (BVar "value")
  (* src/parser/mod.rs:1661-1666 *)
  | N_visibility =>
      GAlt
        [(GSeq [(PVar "x", (GNT N_visibility_public))] (BVariant "Visibility" "Public" (BVar "x")));
         (GSeq [(PVar "x", t_kw_crate)] (BVariant "Visibility" "Crate" (BVar "x")))]
  (* src/parser/mod.rs:1668-1674 *)
  | N_visibility_public =>
      GSeq
        [((PVar "spt"), GPoint);
         ((PVar "_"), t_kw_pub);
         ((PVar "qualifier"), (GOpt (GNT N_visibility_public_qualifier)))]
        (BMk "VisibilityPublic" [("extent", (BEx "spt")); ("qualifier", (BVar "qualifier")); ("whitespace", BNil)])
  (* src/parser/mod.rs:1676-1684 *)
  | N_visibility_public_qualifier =>
      GSeq
        [((PVar "_"), t_left_paren);
         ((PVar "qualifier"), (GNT N_visibility_qualifier_kind));
         ((PVar "_"), t_right_paren)]
        (BVar "qualifier")
  (* src/parser/mod.rs:1686-1694 *)
  | N_visibility_qualifier_kind =>
      GAlt
        [(GSeq [((PVar "_"), t_kw_self_ident)] (BVariant "VisibilityPublicQualifier" "SelfIdent" BUnit));
         (GSeq [((PVar "_"), t_kw_crate)] (BVariant "VisibilityPublicQualifier" "Crate" BUnit));
         (GSeq [(PVar "x", (GNT N_path))] (BVariant "VisibilityPublicQualifier" "Path" (BVar "x")))]
  (* src/parser/mod.rs:1697-1720 *)
  | N_trait_impl_function_header =>
      GSeq
        [((PVar "spt"), GPoint);
         ((PVar "visibility"), (GOpt (GNT N_visibility)));
         ((PVar "qualifiers"), (GNT N_function_qualifiers));
         ((PVar "_"), t_kw_fn);
         ((PVar "name"), (GNT N_ident));
         ((PVar "generics"), (GOpt (GNT N_generic_declarations)));
         ((PVar "arguments"), (GNT N_trait_impl_function_arglist));
         ((PVar "return_type"), (GOpt (GNT N_function_return_type)));
         ((PVar "wheres"), (GOpt (GNT N_where_clause)))]
        (BMk "TraitImplFunctionHeader" [("extent", (BEx "spt")); ("visibility", (BVar "visibility")); ("qualifiers", (BVar "qualifiers")); ("name", (BVar "name")); ("generics", (BVar "generics")); ("arguments", (BVar "arguments")); ("return_type", (BVar "return_type")); ("wheres", (BUnwrapNil (BVar "wheres"))); ("whitespace", BNil)])
  (* src/parser/mod.rs:1722-1729 *)
  | N_trait_impl_function_arglist =>
      GSeq
        [((PVar "_"), t_left_paren);
         ((PVar "self_arg"), (GOpt (GSeq [(PVar "x", (GNT N_self_argument))] (BVariant "TraitImplArgument" "SelfArgument" (BVar "x")))));
         ((PVar "args"), (tailed_values (BIntoAppend (BVar "self_arg")) t_comma (GNT N_trait_impl_function_argument)));
         ((PVar "_"), t_right_paren)]
        (BVar "args")
  (* src/parser/mod.rs:1731-1742 *)
  | N_trait_impl_function_argument =>
      GSeq
        [((PVar "spt"), GPoint);
         ((PVar "name"), (GOpt (GNT N_trait_impl_function_argument_name)));
         ((PVar "typ"), (GNT N_typ))]
        (BVariant "TraitImplArgument" "Named" (BMk "TraitImplArgumentNamed" [("extent", (BEx "spt")); ("name", (BVar "name")); ("typ", (BVar "typ")); ("whitespace", BNil)]))
  (* src/parser/mod.rs:1744-1751 *)
  | N_trait_impl_function_argument_name =>
      GSeq
        [((PVar "name"), (GNT N_pattern));
         ((PVar "_"), t_colon)]
        (BVar "name")
  (* src/parser/mod.rs:1753-1758 *)
  | N_trait_impl_function_body =>
      GAlt
        [(GSeq [(PVar "x", (GNT N_block))] (BSome (BVar "x")));
         (GSeq [((PVar "_"), t_semicolon)] BNone)]
  (* src/parser/mod.rs:1760-1780 *)
  | N_p_impl =>
      GSeq
        [((PVar "spt"), GPoint);
         ((PVar "is_unsafe"), (GOpt (GExt t_kw_unsafe)));
         ((PVar "_"), t_kw_impl);
         ((PVar "generics"), (GOpt (GNT N_generic_declarations)));
         ((PVar "kind"), (GNT N_p_impl_kind));
         ((PVar "wheres"), (GOpt (GNT N_where_clause)));
         ((PVar "_"), t_left_curly);
         ((PVar "body"), (GMany (attributed "ImplMember" (GNT N_impl_member))));
         ((PVar "_"), t_right_curly)]
        (BMk "Impl" [("extent", (BEx "spt")); ("is_unsafe", (BVar "is_unsafe")); ("generics", (BVar "generics")); ("kind", (BVar "kind")); ("wheres", (BUnwrapNil (BVar "wheres"))); ("body", (BVar "body")); ("whitespace", BNil)])
  (* src/parser/mod.rs:1782-1787 *)
  | N_p_impl_kind =>
      GAlt
        [(GSeq [(PVar "x", (GNT N_p_impl_of_trait))] (BVariant "ImplKind" "Trait" (BVar "x")));
         (GSeq [(PVar "x", (GNT N_p_impl_of_inherent))] (BVariant "ImplKind" "Inherent" (BVar "x")))]
  (* src/parser/mod.rs:1789-1798 *)
  | N_p_impl_of_inherent =>
      GSeq
        [((PVar "spt"), GPoint);
         ((PVar "type_name"), (GNT N_typ))]
        (BMk "ImplOfInherent" [("extent", (BEx "spt")); ("type_name", (BVar "type_name")); ("whitespace", BNil)])
  (* src/parser/mod.rs:1800-1814 *)
  | N_p_impl_of_trait =>
      GSeq
        [((PVar "spt"), GPoint);
         ((PVar "is_negative"), (GOpt (GExt t_bang)));
         ((PVar "trait_name"), (GNT N_typ));
         ((PVar "_"), t_kw_for);
         ((PVar "type_name"), (GNT N_type_or_wildcard))]
        (BMk "ImplOfTrait" [("extent", (BEx "spt")); ("is_negative", (BVar "is_negative")); ("trait_name", (BVar "trait_name")); ("type_name", (BVar "type_name")); ("whitespace", BNil)])
  (* src/parser/mod.rs:1816-1821 *)
  | N_type_or_wildcard =>
      GAlt
        [(GSeq [(PVar "x", (GNT N_typ))] (BVariant "ImplOfTraitType" "Type" (BVar "x")));
         (GSeq [(PVar "x", (GExt t_double_period))] (BVariant "ImplOfTraitType" "Wildcard" (BVar "x")))]
  (* src/parser/mod.rs:1823-1830 *)
  | N_impl_member =>
      GAlt
        [(GSeq [(PVar "x", (GNT N_impl_const))] (BVariant "ImplMember" "Const" (BVar "x")));
         (GSeq [(PVar "x", (GNT N_impl_function))] (BVariant "ImplMember" "Function" (BVar "x")));
         (GSeq [(PVar "x", (GNT N_impl_type))] (BVariant "ImplMember" "Type" (BVar "x")));
         (GSeq [(PVar "x", (GNT N_item_macro_call))] (BVariant "ImplMember" "MacroCall" (BVar "x")))]
  (* src/parser/mod.rs:1832-1843 *)
  | N_impl_function =>
      GSeq
        [((PVar "spt"), GPoint);
         ((PVar "header"), (GNT N_function_header));
         ((PVar "body"), (GNT N_block))]
        (BMk "ImplFunction" [("extent", (BEx "spt")); ("header", (BVar "header")); ("body", (BVar "body")); ("whitespace", BNil)])
  (* src/parser/mod.rs:1845-1854 *)
  | N_impl_type =>
      GSeq
        [((PVar "spt"), GPoint);
         ((PVar "_"), t_kw_type);
         ((PVar "name"), (GNT N_ident));
         ((PVar "_"), t_equals);
         ((PVar "typ"), (GNT N_typ));
         ((PVar "_"), t_semicolon)]
        (BMk "ImplType" [("extent", (BEx "spt")); ("name", (BVar "name")); ("typ", (BVar "typ")); ("whitespace", BNil)])
  (* src/parser/mod.rs:1856-1874 *)
  | N_impl_const =>
      GSeq
        [((PVar "spt"), GPoint);
         ((PVar "visibility"), (GOpt (GNT N_visibility)));
         ((PVar "_"), t_kw_const);
         ((PVar "name"), (GNT N_ident));
         ((PVar "_"), t_colon);
         ((PVar "typ"), (GNT N_typ));
         ((PVar "_"), t_equals);
         ((PVar "value"), (GNT N_expression));
         ((PVar "_"), t_semicolon)]
        (BMk "ImplConst" [("extent", (BEx "spt")); ("visibility", (BVar "visibility")); ("name", (BVar "name")); ("typ", (BVar "typ")); ("value", (BVar "value")); ("whitespace", BNil)])
  (* src/parser/mod.rs:1878-1890 *)
  | N_p_const =>
      GSeq
        [((PVar "spt"), GPoint);
         ((PVar "visibility"), (GOpt (GNT N_visibility)));
         ((PVar "_"), t_kw_const);
         ((PVar "name"), (GNT N_ident));
         ((PVar "_"), t_colon);
         ((PVar "typ"), (GNT N_typ));
         ((PVar "_"), t_equals);
         ((PVar "value"), (GNT N_expression));
         ((PVar "_"), t_semicolon)]
        (BMk "Const" [("extent", (BEx "spt")); ("visibility", (BVar "visibility")); ("name", (BVar "name")); ("typ", (BVar "typ")); ("value", (BVar "value")); ("whitespace", BNil)])
  (* src/parser/mod.rs:1892-1905 *)
  | N_p_static =>
      GSeq
        [((PVar "spt"), GPoint);
         ((PVar "visibility"), (GOpt (GNT N_visibility)));
         ((PVar "_"), t_kw_static);
         ((PVar "is_mut"), (GOpt (GExt t_kw_mut)));
         ((PVar "name"), (GNT N_ident));
         ((PVar "_"), t_colon);
         ((PVar "typ"), (GNT N_typ));
         ((PVar "_"), t_equals);
         ((PVar "value"), (GNT N_expression));
         ((PVar "_"), t_semicolon)]
        (BMk "Static" [("extent", (BEx "spt")); ("visibility", (BVar "visibility")); ("is_mut", (BVar "is_mut")); ("name", (BVar "name")); ("typ", (BVar "typ")); ("value", (BVar "value")); ("whitespace", BNil)])
  (* src/parser/mod.rs:1907-1917 *)
  | N_extern_crate =>
      GSeq
        [((PVar "spt"), GPoint);
         ((PVar "visibility"), (GOpt (GNT N_visibility)));
         ((PVar "_"), t_kw_extern);
         ((PVar "_"), t_kw_crate);
         ((PVar "name"), (GNT N_ident));
         ((PVar "rename"), (GOpt (GNT N_extern_crate_rename)));
         ((PVar "_"), t_semicolon)]
        (BMk "Crate" [("extent", (BEx "spt")); ("visibility", (BVar "visibility")); ("name", (BVar "name")); ("rename", (BVar "rename")); ("whitespace", BNil)])
  (* src/parser/mod.rs:1919-1924 *)
  | N_extern_crate_rename =>
      GSeq
        [((PVar "_"), t_kw_as);
         ((PVar "name"), (GNT N_ident))]
        (BVar "name")
  (* src/parser/mod.rs:1926-1935 *)
  | N_extern_block =>
      GSeq
        [((PVar "spt"), GPoint);
         ((PVar "_"), t_kw_extern);
         ((PVar "abi"), (GOpt (GNT N_string_literal)));
         ((PVar "_"), t_left_curly);
         ((PVar "members"), (GMany (attributed "ExternBlockMember" (GNT N_extern_block_member))));
         ((PVar "_"), t_right_curly)]
        (BMk "ExternBlock" [("extent", (BEx "spt")); ("abi", (BVar "abi")); ("members", (BVar "members")); ("whitespace", BNil)])
  (* src/parser/mod.rs:1937-1943 *)
  | N_extern_block_member =>
      GAlt
        [(GSeq [(PVar "x", (GNT N_extern_block_static))] (BVariant "ExternBlockMember" "Static" (BVar "x")));
         (GSeq [(PVar "x", (GNT N_extern_block_type))] (BVariant "ExternBlockMember" "Type" (BVar "x")));
         (GSeq [(PVar "x", (GNT N_extern_block_member_function))] (BVariant "ExternBlockMember" "Function" (BVar "x")))]
  (* src/parser/mod.rs:1946-1957 *)
  | N_extern_block_static =>
      GSeq
        [((PVar "spt"), GPoint);
         ((PVar "visibility"), (GOpt (GNT N_visibility)));
         ((PVar "_"), t_kw_static);
         ((PVar "is_mut"), (GOpt (GExt t_kw_mut)));
         ((PVar "name"), (GNT N_ident));
         ((PVar "_"), t_colon);
         ((PVar "typ"), (GNT N_typ));
         ((PVar "_"), t_semicolon)]
        (BMk "ExternBlockMemberStatic" [("extent", (BEx "spt")); ("visibility", (BVar "visibility")); ("is_mut", (BVar "is_mut")); ("name", (BVar "name")); ("typ", (BVar "typ")); ("whitespace", BNil)])
  (* src/parser/mod.rs:1959-1972 *)
  | N_extern_block_type =>
      GSeq
        [((PVar "spt"), GPoint);
         ((PVar "visibility"), (GOpt (GNT N_visibility)));
         ((PVar "_"), t_kw_type);
         ((PVar "name"), (GNT N_ident));
         ((PVar "_"), t_semicolon)]
        (BMk "ExternBlockMemberType" [("extent", (BEx "spt")); ("visibility", (BVar "visibility")); ("name", (BVar "name")); ("whitespace", BNil)])
  (* src/parser/mod.rs:1975-2000 *)
  | N_extern_block_member_function =>
      GSeq
        [((PVar "spt"), GPoint);
         ((PVar "visibility"), (GOpt (GNT N_visibility)));
         ((PVar "_"), t_kw_fn);
         ((PVar "name"), (GNT N_ident));
         ((PVar "generics"), (GOpt (GNT N_generic_declarations)));
         ((PVar "arguments"), (GNT N_extern_block_function_arglist));
         ((PVar "return_type"), (GOpt (GNT N_function_return_type)));
         ((PVar "wheres"), (GOpt (GNT N_where_clause)));
         ((PVar "_"), t_semicolon)]
        (BMk "ExternBlockMemberFunction" [("extent", (BEx "spt")); ("visibility", (BVar "visibility")); ("name", (BVar "name")); ("generics", (BVar "generics")); ("arguments", (BVar "arguments")); ("return_type", (BVar "return_type")); ("wheres", (BUnwrapNil (BVar "wheres"))); ("whitespace", BNil)])
  (* src/parser/mod.rs:2002-2010 *)
  | N_extern_block_function_arglist =>
      GSeq
        [((PVar "_"), t_left_paren);
         ((PVar "args"), (tailed_values BNil t_comma (GNT N_extern_block_function_argument)));
         ((PVar "_"), t_right_paren)]
        (BVar "args")
  (* src/parser/mod.rs:2012-2019 *)
  | N_extern_block_function_argument =>
      GAlt
        [(GSeq [(PVar "x", (GNT N_extern_block_function_argument_named))] (BVariant "ExternBlockMemberFunctionArgument" "Named" (BVar "x")));
         (GSeq [(PVar "x", (GNT N_extern_block_function_argument_variadic))] (BVariant "ExternBlockMemberFunctionArgument" "Variadic" (BVar "x")))]
  (* src/parser/mod.rs:2021-2035 *)
  | N_extern_block_function_argument_named =>
      GSeq
        [((PVar "spt"), GPoint);
         ((PVar "name"), (GNT N_pattern));
         ((PVar "_"), t_colon);
         ((PVar "typ"), (GNT N_typ))]
        (BMk "ExternBlockMemberFunctionArgumentNamed" [("extent", (BEx "spt")); ("name", (BVar "name")); ("typ", (BVar "typ")); ("whitespace", BNil)])
  (* src/parser/mod.rs:2037-2044 *)
  | N_extern_block_function_argument_variadic =>
      GSeq
        [((PVar "spt"), GPoint);
         ((PVar "_"), t_triple_period)]
        (BMk "ExternBlockMemberFunctionArgumentVariadic" [("extent", (BEx "spt"))])
  (* src/parser/mod.rs:2046-2057 *)
  | N_p_use =>
      GSeq
        [((PVar "spt"), GPoint);
         ((PVar "visibility"), (GOpt (GNT N_visibility)));
         ((PVar "_"), t_kw_use);
         ((PVar "_"), (GOpt t_double_colon));
         ((PVar "path"), (GNT N_use_path));
         ((PVar "_"), t_semicolon)]
        (BMk "Use" [("extent", (BEx "spt")); ("visibility", (BVar "visibility")); ("path", (BVar "path")); ("whitespace", BNil)])
  (* src/parser/mod.rs:2059-2070 *)
  | N_use_path =>
      GSeq
        [((PVar "spt"), GPoint);
         ((PVar "path"), (GMany (GNT N_use_path_component)));
         ((PVar "tail"), (GNT N_use_tail))]
        (BMk "UsePath" [("extent", (BEx "spt")); ("path", (BVar "path")); ("tail", (BVar "tail")); ("whitespace", BNil)])
  (* src/parser/mod.rs:2072-2077 *)
  | N_use_path_component =>
      GSeq
        [((PVar "name"), (GNT N_path_member));
         ((PVar "_"), t_double_colon)]
        (BVar "name")
  (* src/parser/mod.rs:2079-2084 *)
  | N_path_member =>
      GAlt
        [(GSeq [((PVar "extent"), t_kw_crate)] (BMk "Ident" [("extent", (BVar "extent"))]));
         (GNT N_ident)]
  (* src/parser/mod.rs:2086-2092 *)
  | N_use_tail =>
      GAlt
        [(GSeq [(PVar "x", (GNT N_use_tail_ident))] (BVariant "UseTail" "Ident" (BVar "x")));
         (GSeq [(PVar "x", (GNT N_use_tail_glob))] (BVariant "UseTail" "Glob" (BVar "x")));
         (GSeq [(PVar "x", (GNT N_use_tail_multi))] (BVariant "UseTail" "Multi" (BVar "x")))]
  (* src/parser/mod.rs:2094-2105 *)
  | N_use_tail_ident =>
      GSeq
        [((PVar "spt"), GPoint);
         ((PVar "name"), (GNT N_ident));
         ((PVar "rename"), (GOpt (GNT N_use_tail_ident_rename)))]
        (BMk "UseTailIdent" [("extent", (BEx "spt")); ("name", (BVar "name")); ("rename", (BVar "rename")); ("whitespace", BNil)])
  (* src/parser/mod.rs:2107-2112 *)
  | N_use_tail_ident_rename =>
      GSeq
        [((PVar "_"), t_kw_as);
         ((PVar "name"), (GNT N_ident))]
        (BVar "name")
  (* src/parser/mod.rs:2114-2119 *)
  | N_use_tail_glob =>
      GSeq
        [((PVar "spt"), GPoint);
         ((PVar "_"), t_asterisk)]
        (BMk "UseTailGlob" [("extent", (BEx "spt"))])
  (* src/parser/mod.rs:2121-2132 *)
  | N_use_tail_multi =>
      GSeq
        [((PVar "spt"), GPoint);
         ((PVar "_"), t_left_curly);
         ((PVar "paths"), (tailed_values BNil t_comma (GNT N_use_path)));
         ((PVar "_"), t_right_curly)]
        (BMk "UseTailMulti" [("extent", (BEx "spt")); ("paths", (BVar "paths")); ("whitespace", BNil)])
  (* src/parser/mod.rs:2134-2154 *)
  | N_type_alias =>
      GSeq
        [((PVar "spt"), GPoint);
         ((PVar "visibility"), (GOpt (GNT N_visibility)));
         ((PVar "_"), t_kw_type);
         ((PVar "name"), (GNT N_ident));
         ((PVar "generics"), (GOpt (GNT N_generic_declarations)));
         ((PVar "wheres"), (GOpt (GNT N_where_clause)));
         ((PVar "_"), t_equals);
         ((PVar "defn"), (GNT N_typ));
         ((PVar "_"), t_semicolon)]
        (BMk "TypeAlias" [("extent", (BEx "spt")); ("visibility", (BVar "visibility")); ("name", (BVar "name")); ("generics", (BVar "generics")); ("wheres", (BUnwrapNil (BVar "wheres"))); ("defn", (BVar "defn")); ("whitespace", BNil)])
  (* src/parser/mod.rs:2156-2164 *)
  | N_module =>
      GSeq
        [((PVar "spt"), GPoint);
         ((PVar "visibility"), (GOpt (GNT N_visibility)));
         ((PVar "_"), t_kw_mod);
         ((PVar "name"), (GNT N_ident));
         ((PVar "body"), (GNT N_module_body_or_not))]
        (BMk "Module" [("extent", (BEx "spt")); ("visibility", (BVar "visibility")); ("name", (BVar "name")); ("body", (BVar "body")); ("whitespace", BNil)])
  (* src/parser/mod.rs:2166-2171 *)
  | N_module_body_or_not =>
      GAlt
        [(GSeq [(PVar "x", (GNT N_module_body))] (BSome (BVar "x")));
         (GSeq [((PVar "_"), t_semicolon)] BNone)]
  (* src/parser/mod.rs:2173-2179 *)
  | N_module_body =>
      GSeq
        [((PVar "_"), t_left_curly);
         ((PVar "body"), (GMany (attributed "Item" (GNT N_item))));
         ((PVar "_"), t_right_curly)]
        (BVar "body")
  (* src/parser/mod.rs:2181-2192 *)
  | N_typ =>
      GSeq
        [((PVar "spt"), GPoint);
         ((PVar "kind"), (GNT N_typ_kind));
         ((PVar "additional"), (GResume t_plus (GNT N_typ_additional)))]
        (BMk "Type" [("extent", (BEx "spt")); ("kind", (BVar "kind")); ("additional", (BVar "additional")); ("whitespace", BNil)])
  (* src/parser/mod.rs:2194-2204 *)
  | N_typ_single =>
      GSeq
        [((PVar "spt"), GPoint);
         ((PVar "kind"), (GNT N_typ_kind))]
        (BMk "Type" [("extent", (BEx "spt")); ("kind", (BVar "kind")); ("additional", BNil); ("whitespace", BNil)])
  (* src/parser/mod.rs:2206-2221 *)
  | N_typ_kind =>
      GAlt
        [(GSeq [(PVar "x", (GNT N_typ_array))] (BVariant "TypeKind" "Array" (BVar "x")));
         (GSeq [(PVar "x", (GNT N_typ_disambiguation))] (BVariant "TypeKind" "Disambiguation" (BVar "x")));
         (GSeq [(PVar "x", (GNT N_typ_function))] (BVariant "TypeKind" "Function" (BVar "x")));
         (GSeq [(PVar "x", (GNT N_typ_higher_ranked_trait_bounds))] (BVariant "TypeKind" "HigherRankedTraitBounds" (BVar "x")));
         (GSeq [(PVar "x", (GNT N_typ_dyn_trait))] (BVariant "TypeKind" "DynTrait" (BVar "x")));
         (GSeq [(PVar "x", (GNT N_typ_impl_trait))] (BVariant "TypeKind" "ImplTrait" (BVar "x")));
         (GSeq [(PVar "x", (GNT N_typ_named))] (BVariant "TypeKind" "Named" (BVar "x")));
         (GSeq [(PVar "x", (GNT N_typ_pointer))] (BVariant "TypeKind" "Pointer" (BVar "x")));
         (GSeq [(PVar "x", (GNT N_typ_reference))] (BVariant "TypeKind" "Reference" (BVar "x")));
         (GSeq [(PVar "x", (GNT N_typ_slice))] (BVariant "TypeKind" "Slice" (BVar "x")));
         (GSeq [(PVar "x", (GNT N_typ_tuple))] (BVariant "TypeKind" "Tuple" (BVar "x")));
         (GSeq [(PVar "x", (GExt t_bang))] (BVariant "TypeKind" "Uninhabited" (BVar "x")))]
  (* src/parser/mod.rs:2223-2234 *)
  | N_typ_reference =>
      GSeq
        [((PVar "spt"), GPoint);
         ((PVar "kind"), (GNT N_typ_reference_kind));
         ((PVar "typ"), (GNT N_typ))]
        (BMk "TypeReference" [("extent", (BEx "spt")); ("kind", (BVar "kind")); ("typ", (BVar "typ")); ("whitespace", BNil)])
  (* src/parser/mod.rs:2236-2243 *)
  | N_typ_reference_kind =>
      GSeq
        [((PVar "spt"), GPoint);
         ((PVar "_"), t_ampersand);
         ((PVar "lifetime"), (GOpt (GNT N_lifetime)));
         ((PVar "mutable"), (GOpt (GExt t_kw_mut)))]
        (BMk "TypeReferenceKind" [("extent", (BEx "spt")); ("lifetime", (BVar "lifetime")); ("mutable", (BVar "mutable")); ("whitespace", BNil)])
  (* src/parser/mod.rs:2245-2252 *)
  | N_typ_pointer =>
      GSeq
        [((PVar "spt"), GPoint);
         ((PVar "_"), t_asterisk);
         ((PVar "kind"), (GNT N_typ_pointer_kind));
         ((PVar "typ"), (GNT N_typ))]
        (BMk "TypePointer" [("extent", (BEx "spt")); ("kind", (BVar "kind")); ("typ", (BVar "typ")); ("whitespace", BNil)])
  (* src/parser/mod.rs:2254-2259 *)
  | N_typ_pointer_kind =>
      GAlt
        [(GSeq [((PVar "_"), t_kw_const)] (BVariant "TypePointerKind" "Const" BUnit));
         (GSeq [((PVar "_"), t_kw_mut)] (BVariant "TypePointerKind" "Mutable" BUnit))]
  (* src/parser/mod.rs:2261-2272 *)
  | N_typ_tuple =>
      GSeq
        [((PVar "spt"), GPoint);
         ((PVar "_"), t_left_paren);
         ((PVar "types"), (tailed_values BNil t_comma (GNT N_typ)));
         ((PVar "_"), t_right_paren)]
        (BMk "TypeTuple" [("extent", (BEx "spt")); ("types", (BVar "types")); ("whitespace", BNil)])
  (* src/parser/mod.rs:2274-2282 *)
  | N_typ_higher_ranked_trait_bounds =>
      GSeq
        [((PVar "spt"), GPoint);
         ((PVar "lifetimes"), (GNT N_higher_ranked_trait_bounds));
         ((PVar "child"), (GNT N_typ_higher_ranked_trait_bounds_child))]
        (BMk "TypeHigherRankedTraitBounds" [("extent", (BEx "spt")); ("lifetimes", (BVar "lifetimes")); ("child", (BVar "child")); ("whitespace", BNil)])
  (* src/parser/mod.rs:2284-2293 *)
  | N_higher_ranked_trait_bounds =>
      GSeq
        [((PVar "_"), t_kw_for);
         ((PVar "_"), t_left_angle);
         ((PVar "lifetimes"), (tailed_values BNil t_comma (GNT N_lifetime)));
         ((PVar "_"), t_right_angle)]
        (BVar "lifetimes")
  (* src/parser/mod.rs:2295-2303 *)
  | N_typ_higher_ranked_trait_bounds_child =>
      GAlt
        [(GSeq [(PVar "x", (GNT N_typ_named))] (BVariant "TypeHigherRankedTraitBoundsChild" "Named" (BVar "x")));
         (GSeq [(PVar "x", (GNT N_typ_function))] (BVariant "TypeHigherRankedTraitBoundsChild" "Function" (BVar "x")));
         (GSeq [(PVar "x", (GNT N_typ_reference))] (BVariant "TypeHigherRankedTraitBoundsChild" "Reference" (BVar "x")))]
  (* src/parser/mod.rs:2305-2311 *)
  | N_typ_dyn_trait =>
      GSeq
        [((PVar "spt"), GPoint);
         ((PVar "_"), t_kw_dyn);
         ((PVar "name"), (GNT N_typ_named))]
        (BMk "TypeDynTrait" [("extent", (BEx "spt")); ("name", (BVar "name")); ("whitespace", BNil)])
  (* src/parser/mod.rs:2313-2319 *)
  | N_typ_impl_trait =>
      GSeq
        [((PVar "spt"), GPoint);
         ((PVar "_"), t_kw_impl);
         ((PVar "name"), (GNT N_typ_named))]
        (BMk "TypeImplTrait" [("extent", (BEx "spt")); ("name", (BVar "name")); ("whitespace", BNil)])
  (* src/parser/mod.rs:2321-2328 *)
  | N_typ_additional =>
      GAlt
        [(GSeq [(PVar "x", (GNT N_typ_named))] (BVariant "TypeAdditional" "Named" (BVar "x")));
         (GSeq [(PVar "x", (GNT N_lifetime))] (BVariant "TypeAdditional" "Lifetime" (BVar "x")))]
  (* src/parser/mod.rs:2330-2340 *)
  | N_typ_named =>
      GSeq
        [((PVar "spt"), GPoint);
         ((PVar "_"), (GOpt t_double_colon));
         ((PVar "path"), (tailed1_values t_double_colon (GNT N_typ_named_component)))]
        (BMk "TypeNamed" [("extent", (BEx "spt")); ("path", (BVar "path")); ("whitespace", BNil)])
  (* src/parser/mod.rs:2342-2353 *)
  | N_typ_named_component =>
      GSeq
        [((PVar "spt"), GPoint);
         ((PVar "ident"), (GNT N_path_member));
         ((PVar "generics"), (GOpt (GNT N_typ_generics)))]
        (BMk "TypeNamedComponent" [("extent", (BEx "spt")); ("ident", (BVar "ident")); ("generics", (BVar "generics")); ("whitespace", BNil)])
  (* src/parser/mod.rs:2355-2367 *)
  | N_typ_disambiguation =>
      GSeq
        [((PVar "spt"), GPoint);
         ((PVar "core"), (GNT N_disambiguation_core));
         ((PVar "path"), (GResume t_double_colon (GNT N_typ_named_component)))]
        (BMk "TypeDisambiguation" [("extent", (BEx "spt")); ("from_type", (BField "from_type" (BVar "core"))); ("to_type", (BField "to_type" (BVar "core"))); ("path", (BVar "path")); ("whitespace", (BField "whitespace" (BVar "core")))])
  (* src/parser/mod.rs:2375-2382 *)
  | N_disambiguation_core =>
      GSeq
        [((PVar "_"), t_left_angle);
         ((PVar "from_type"), (GNT N_typ));
         ((PVar "to_type"), (GOpt (GNT N_disambiguation_core_to_type)));
         ((PVar "_"), t_right_angle)]
        (BMk "DisambiguationCore" [("from_type", (BVar "from_type")); ("to_type", (BVar "to_type")); ("whitespace", BNil)])
  (* src/parser/mod.rs:2384-2391 *)
  | N_disambiguation_core_to_type =>
      GSeq
        [((PVar "_"), t_kw_as);
         ((PVar "to_type"), (GNT N_typ_named))]
        (BVar "to_type")
  (* src/parser/mod.rs:2393-2407 *)
  | N_typ_array =>
      GSeq
        [((PVar "spt"), GPoint);
         ((PVar "_"), t_left_square);
         ((PVar "typ"), (GNT N_typ));
         ((PVar "_"), t_semicolon);
         ((PVar "count"), (GNT N_expression));
         ((PVar "_"), t_right_square)]
        (BMk "TypeArray" [("extent", (BEx "spt")); ("typ", (BVar "typ")); ("count", (BVar "count")); ("whitespace", BNil)])
  (* src/parser/mod.rs:2409-2416 *)
  | N_typ_slice =>
      GSeq
        [((PVar "spt"), GPoint);
         ((PVar "_"), t_left_square);
         ((PVar "typ"), (GNT N_typ));
         ((PVar "_"), t_right_square)]
        (BMk "TypeSlice" [("extent", (BEx "spt")); ("typ", (BVar "typ")); ("whitespace", BNil)])
  (* src/parser/mod.rs:2418-2423 *)
  | N_typ_generics =>
      GAlt
        [(GSeq [(PVar "x", (GNT N_typ_generics_fn))] (BVariant "TypeGenerics" "Function" (BVar "x")));
         (GSeq [(PVar "x", (GNT N_typ_generics_angle))] (BVariant "TypeGenerics" "Angle" (BVar "x")))]
  (* src/parser/mod.rs:2425-2438 *)
  | N_typ_generics_fn =>
      GSeq
        [((PVar "spt"), GPoint);
         ((PVar "_"), t_left_paren);
         ((PVar "types"), (tailed_values BNil t_comma (GNT N_typ)));
         ((PVar "_"), t_right_paren);
         ((PVar "return_type"), (GOpt (GNT N_function_return_type)))]
        (BMk "TypeGenericsFunction" [("extent", (BEx "spt")); ("types", (BVar "types")); ("return_type", (BVar "return_type")); ("whitespace", BNil)])
  (* src/parser/mod.rs:2440-2447 *)
  | N_typ_generics_angle =>
      GSeq
        [((PVar "spt"), GPoint);
         ((PVar "_"), t_left_angle);
         ((PVar "members"), (tailed_values BNil t_comma (GNT N_typ_generics_angle_member)));
         ((PVar "_"), t_right_angle)]
        (BMk "TypeGenericsAngle" [("extent", (BEx "spt")); ("members", (BVar "members")); ("whitespace", BNil)])
  (* src/parser/mod.rs:2453-2461 *)
  | N_typ_generics_angle_member =>
      GAlt
        [(GSeq [(PVar "x", (GNT N_associated_type))] (BVariant "TypeGenericsAngleMember" "AssociatedType" (BVar "x")));
         (GSeq [(PVar "x", (GNT N_lifetime))] (BVariant "TypeGenericsAngleMember" "Lifetime" (BVar "x")));
         (GSeq [(PVar "x", (GNT N_typ))] (BVariant "TypeGenericsAngleMember" "Type" (BVar "x")))]
  (* src/parser/mod.rs:2463-2469 *)
  | N_associated_type =>
      GSeq
        [((PVar "spt"), GPoint);
         ((PVar "name"), (GNT N_ident));
         ((PVar "value"), (GNT N_associated_type_value))]
        (BMk "AssociatedType" [("extent", (BEx "spt")); ("name", (BVar "name")); ("value", (BVar "value")); ("whitespace", BNil)])
  (* src/parser/mod.rs:2471-2478 *)
  | N_associated_type_value =>
      GAlt
        [(GSeq [(PVar "x", (GNT N_associated_type_value_equal))] (BVariant "AssociatedTypeValue" "Equal" (BVar "x")));
         (GSeq [(PVar "x", (GNT N_associated_type_value_bound))] (BVariant "AssociatedTypeValue" "Bound" (BVar "x")))]
  (* src/parser/mod.rs:2480-2486 *)
  | N_associated_type_value_equal =>
      GSeq
        [((PVar "spt"), GPoint);
         ((PVar "_"), t_equals);
         ((PVar "value"), (GNT N_typ))]
        (BMk "AssociatedTypeValueEqual" [("extent", (BEx "spt")); ("value", (BVar "value")); ("whitespace", BNil)])
  (* src/parser/mod.rs:2488-2494 *)
  | N_associated_type_value_bound =>
      GSeq
        [((PVar "spt"), GPoint);
         ((PVar "_"), t_colon);
         ((PVar "bounds"), (GNT N_trait_bounds))]
        (BMk "AssociatedTypeValueBound" [("extent", (BEx "spt")); ("bounds", (BVar "bounds")); ("whitespace", BNil)])
  (* src/parser/mod.rs:2496-2513 *)
  | N_typ_function =>
      GSeq
        [((PVar "spt"), GPoint);
         ((PVar "qualifiers"), (GNT N_function_qualifiers));
         ((PVar "_"), t_kw_fn);
         ((PVar "_"), t_left_paren);
         ((PVar "arguments"), (tailed_values BNil t_comma (GNT N_typ_function_argument)));
         ((PVar "arguments"), (tailed_values (BIntoAppend (BVar "arguments")) t_comma (GNT N_typ_function_argument_variadic)));
         ((PVar "_"), t_right_paren);
         ((PVar "return_type"), (GOpt (GNT N_function_return_type)))]
        (BMk "TypeFunction" [("extent", (BEx "spt")); ("qualifiers", (BVar "qualifiers")); ("arguments", (BVar "arguments")); ("return_type", (BVar "return_type")); ("whitespace", BNil)])
  (* src/parser/mod.rs:2515-2528 *)
  | N_typ_function_argument =>
      GSeq
        [((PVar "spt"), GPoint);
         ((PVar "name"), (GOpt (GNT N_typ_function_argument_name)));
         ((PVar "typ"), (GNT N_typ))]
        (BVariant "TypeFunctionArgument" "Named" (BMk "TypeFunctionArgumentNamed" [("extent", (BEx "spt")); ("name", (BVar "name")); ("typ", (BVar "typ")); ("whitespace", BNil)]))
  (* src/parser/mod.rs:2530-2537 *)
  | N_typ_function_argument_name =>
      GSeq
        [((PVar "name"), (GNT N_ident));
         ((PVar "_"), t_colon)]
        (BVar "name")
  (* src/parser/mod.rs:2539-2543 *)
  | N_typ_function_argument_variadic =>
      GSeq [(PVar "x", t_triple_period)] (BVariant "TypeFunctionArgument" "Variadic" (BVar "x"))
  (* src/parser/mod.rs:2545-2549 *)
  | N_lifetime =>
      GSeq [((PVar "extent"), t_lifetime_normal)] (BMk "Lifetime" [("extent", (BVar "extent")); ("name", (BMk "Ident" [("extent", (BVar "extent"))]))])
  (* src/parser/mod.rs:2570-2576 *)
  | N_attribute =>
      GAlt
        [(GSeq [(PVar "x", t_doc_comment_outer_line)] (BVariant "Attribute" "DocCommentLine" (BVar "x")));
         (GSeq [(PVar "x", t_doc_comment_outer_block)] (BVariant "Attribute" "DocCommentBlock" (BVar "x")));
         (GSeq [(PVar "x", (GNT N_attribute_literal))] (BVariant "Attribute" "Literal" (BVar "x")))]
  (* src/parser/mod.rs:2578-2590 *)
  | N_attribute_literal =>
      GSeq
        [((PVar "spt"), GPoint);
         ((PVar "_"), t_hash);
         ((PVar "_"), t_left_square);
         ((PVar "text"), (GNested KLeftSquare KRightSquare));
         ((PVar "_"), t_right_square)]
        (BMk "AttributeLiteral" [("extent", (BEx "spt")); ("text", (BVar "text")); ("whitespace", BNil)])
  (* src/parser/mod.rs:2592-2598 *)
  | N_attribute_containing =>
      GAlt
        [(GSeq [(PVar "x", t_doc_comment_inner_line)] (BVariant "AttributeContaining" "DocCommentLine" (BVar "x")));
         (GSeq [(PVar "x", t_doc_comment_inner_block)] (BVariant "AttributeContaining" "DocCommentBlock" (BVar "x")));
         (GSeq [(PVar "x", (GNT N_attribute_containing_literal))] (BVariant "AttributeContaining" "Literal" (BVar "x")))]
  (* src/parser/mod.rs:2600-2613 *)
  | N_attribute_containing_literal =>
      GSeq
        [((PVar "spt"), GPoint);
         ((PVar "_"), t_hash);
         ((PVar "_"), t_bang);
         ((PVar "_"), t_left_square);
         ((PVar "text"), (GNested KLeftSquare KRightSquare));
         ((PVar "_"), t_right_square)]
        (BMk "AttributeContainingLiteral" [("extent", (BEx "spt")); ("text", (BVar "text")); ("whitespace", BNil)])
  (* src/parser/expression.rs:14-21 *)
  | N_expression =>
      GShunt false
  (* src/parser/expression.rs:25-56 *)
  | N_statement_expression =>
      GShunt true
  (* src/parser/expression.rs:274-281 *)
  | N_expression_prefix_or_atom =>
      GAlt
        [(GSeq [(PVar "x", (attributed "OperatorPrefix" (GNT N_operator_prefix)))] (BVariant "PrefixOrAtom" "Prefix" (BVar "x")));
         (GSeq [(PVar "x", (attributed "Expression" (GNT N_expression_atom)))] (BVariant "PrefixOrAtom" "Atom" (BVar "x")))]
  (* src/parser/expression.rs:289-296 *)
  | N_expression_infix_or_postfix =>
      GAlt
        [(GSeq [(PVar "x", (GNT N_operator_infix))] (BVariant "InfixOrPostfix" "Infix" (BVar "x")));
         (GSeq [(PVar "x", (GNT N_operator_postfix))] (BVariant "InfixOrPostfix" "Postfix" (BVar "x")))]
  (* src/parser/expression.rs:298-314 *)
  | N_operator_prefix =>
      GAlt
        [(GSeq [(PVar "x", t_kw_box)] (BVariant "OperatorPrefix" "Box" (BVar "x")));
         (GSeq [(PVar "x", (GNT N_range_inclusive_operator))] (BVariant "OperatorPrefix" "RangeInclusive" (BVar "x")));
         (GSeq [(PVar "x", t_double_period)] (BVariant "OperatorPrefix" "RangeExclusive" (BVar "x")));
         (GSeq [(PVar "x", t_asterisk)] (BVariant "OperatorPrefix" "Dereference" (BVar "x")));
         (GSeq [(PVar "x", t_bang)] (BVariant "OperatorPrefix" "Not" (BVar "x")));
         (GSeq [(PVar "x", t_minus)] (BVariant "OperatorPrefix" "Negate" (BVar "x")));
         (GNT N_operator_prefix_reference)]
  (* src/parser/expression.rs:316-323 *)
  | N_operator_prefix_reference =>
      GSeq
        [((PVar "_"), t_ampersand);
         ((PVar "is_mutable"), (GOpt t_kw_mut))]
        (BVariant "OperatorPrefix" "Reference" (BVar "is_mutable"))
  (* src/parser/expression.rs:325-364 *)
  | N_operator_infix =>
      GAlt
        [(GSeq [(PVar "x", t_shift_left_equals)] (BVariant "OperatorInfix" "ShiftLeftAssign" (BVar "x")));
         (GSeq [(PVar "x", t_shift_right_equals)] (BVariant "OperatorInfix" "ShiftRightAssign" (BVar "x")));
         (GSeq [(PVar "x", (GNT N_range_inclusive_operator))] (BVariant "OperatorInfix" "RangeInclusive" (BVar "x")));
         (GSeq [(PVar "x", t_ampersand_equals)] (BVariant "OperatorInfix" "BitwiseAndAssign" (BVar "x")));
         (GSeq [(PVar "x", t_caret_equals)] (BVariant "OperatorInfix" "BitwiseXorAssign" (BVar "x")));
         (GSeq [(PVar "x", t_divide_equals)] (BVariant "OperatorInfix" "DivAssign" (BVar "x")));
         (GSeq [(PVar "x", t_double_ampersand)] (BVariant "OperatorInfix" "BooleanAnd" (BVar "x")));
         (GSeq [(PVar "x", t_double_equals)] (BVariant "OperatorInfix" "Equal" (BVar "x")));
         (GSeq [(PVar "x", t_double_left_angle)] (BVariant "OperatorInfix" "ShiftLeft" (BVar "x")));
         (GSeq [(PVar "x", t_double_period)] (BVariant "OperatorInfix" "RangeExclusive" (BVar "x")));
         (GSeq [(PVar "x", t_double_pipe)] (BVariant "OperatorInfix" "BooleanOr" (BVar "x")));
         (GSeq [(PVar "x", t_double_right_angle)] (BVariant "OperatorInfix" "ShiftRight" (BVar "x")));
         (GSeq [(PVar "x", t_greater_than_or_equals)] (BVariant "OperatorInfix" "GreaterThanOrEqual" (BVar "x")));
         (GSeq [(PVar "x", t_less_than_or_equals)] (BVariant "OperatorInfix" "LessThanOrEqual" (BVar "x")));
         (GSeq [(PVar "x", t_minus_equals)] (BVariant "OperatorInfix" "SubAssign" (BVar "x")));
         (GSeq [(PVar "x", t_not_equal)] (BVariant "OperatorInfix" "NotEqual" (BVar "x")));
         (GSeq [(PVar "x", t_percent_equals)] (BVariant "OperatorInfix" "ModAssign" (BVar "x")));
         (GSeq [(PVar "x", t_pipe_equals)] (BVariant "OperatorInfix" "BitwiseOrAssign" (BVar "x")));
         (GSeq [(PVar "x", t_plus_equals)] (BVariant "OperatorInfix" "AddAssign" (BVar "x")));
         (GSeq [(PVar "x", t_times_equals)] (BVariant "OperatorInfix" "MulAssign" (BVar "x")));
         (GSeq [(PVar "x", t_ampersand)] (BVariant "OperatorInfix" "BitwiseAnd" (BVar "x")));
         (GSeq [(PVar "x", t_asterisk)] (BVariant "OperatorInfix" "Mul" (BVar "x")));
         (GSeq [(PVar "x", t_caret)] (BVariant "OperatorInfix" "BitwiseXor" (BVar "x")));
         (GSeq [(PVar "x", t_equals)] (BVariant "OperatorInfix" "Assign" (BVar "x")));
         (GSeq [(PVar "x", t_left_angle)] (BVariant "OperatorInfix" "LessThan" (BVar "x")));
         (GSeq [(PVar "x", t_minus)] (BVariant "OperatorInfix" "Sub" (BVar "x")));
         (GSeq [(PVar "x", t_percent)] (BVariant "OperatorInfix" "Mod" (BVar "x")));
         (GSeq [(PVar "x", t_pipe)] (BVariant "OperatorInfix" "BitwiseOr" (BVar "x")));
         (GSeq [(PVar "x", t_plus)] (BVariant "OperatorInfix" "Add" (BVar "x")));
         (GSeq [(PVar "x", t_right_angle)] (BVariant "OperatorInfix" "GreaterThan" (BVar "x")));
         (GSeq [(PVar "x", t_slash)] (BVariant "OperatorInfix" "Div" (BVar "x")))]
  (* src/parser/expression.rs:366-377 *)
  | N_operator_postfix =>
      GAlt
        [(GNT N_operator_postfix_as_type);
         (GNT N_operator_postfix_ascription);
         (GNT N_operator_postfix_call);
         (GNT N_operator_postfix_field_access);
         (GNT N_operator_postfix_slice);
         (GSeq [(PVar "x", t_question_mark)] (BVariant "OperatorPostfix" "Try" (BVar "x")))]
  (* src/parser/expression.rs:379-386 *)
  | N_operator_postfix_limited =>
      GAlt
        [(GNT N_operator_postfix_field_access);
         (GSeq [(PVar "x", t_question_mark)] (BVariant "OperatorPostfix" "Try" (BVar "x")))]
  (* src/parser/expression.rs:388-395 *)
  | N_operator_postfix_as_type =>
      GSeq
        [((PVar "_"), t_kw_as);
         ((PVar "typ"), (GNT N_typ_single))]
        (BVariant "OperatorPostfix" "AsType" (BVar "typ"))
  (* src/parser/expression.rs:397-404 *)
  | N_operator_postfix_ascription =>
      GSeq
        [((PVar "_"), t_colon);
         ((PVar "typ"), (GNT N_typ))]
        (BVariant "OperatorPostfix" "Ascription" (BVar "typ"))
  (* src/parser/expression.rs:407-415 *)
  | N_operator_postfix_call =>
      GSeq
        [((PVar "_"), t_left_paren);
         ((PVar "args"), (GAmb Unambiguous (tailed_values BNil t_comma (GNT N_expression))));
         ((PVar "_"), t_right_paren)]
        (BVariant "OperatorPostfix" "Call" (BVar "args"))
  (* src/parser/expression.rs:417-424 *)
  | N_operator_postfix_field_access =>
      GSeq
        [((PVar "_"), t_period);
         ((PVar "field"), (GNT N_field_name))]
        (BVariant "OperatorPostfix" "FieldAccess" (BVar "field"))
  (* src/parser/expression.rs:426-431 *)
  | N_field_name =>
      GAlt
        [(GSeq [(PVar "x", (GNT N_path_component))] (BVariant "FieldName" "Path" (BVar "x")));
         (GSeq [(PVar "x", (GNT N_field_name_number))] (BVariant "FieldName" "Number" (BVar "x")))]
  (* src/parser/expression.rs:433-436 *)
  | N_field_name_number =>
      GSimple t_number_normal ExpectedNumber
  (* src/parser/expression.rs:439-447 *)
  | N_operator_postfix_slice =>
      GSeq
        [((PVar "_"), t_left_square);
         ((PVar "index"), (GAmb Unambiguous (GNT N_expression)));
         ((PVar "_"), t_right_square)]
        (BVariant "OperatorPostfix" "Slice" (BVar "index"))
  (* src/parser/expression.rs:449-477 *)
  | N_expression_atom =>
      GAlt
        [(GSeq [(PVar "x", (GNT N_expr_if))] (BVariant "Expression" "If" (BVar "x")));
         (GSeq [(PVar "x", (GNT N_expr_if_let))] (BVariant "Expression" "IfLet" (BVar "x")));
         (GSeq [(PVar "x", (GNT N_expr_for_loop))] (BVariant "Expression" "ForLoop" (BVar "x")));
         (GSeq [(PVar "x", (GNT N_expr_loop))] (BVariant "Expression" "Loop" (BVar "x")));
         (GSeq [(PVar "x", (GNT N_expr_while))] (BVariant "Expression" "While" (BVar "x")));
         (GSeq [(PVar "x", (GNT N_expr_while_let))] (BVariant "Expression" "WhileLet" (BVar "x")));
         (GSeq [(PVar "x", (GNT N_expr_match))] (BVariant "Expression" "Match" (BVar "x")));
         (GSeq [(PVar "x", (GNT N_expr_unsafe_block))] (BVariant "Expression" "UnsafeBlock" (BVar "x")));
         (GSeq [(PVar "x", (GNT N_expr_async_block))] (BVariant "Expression" "AsyncBlock" (BVar "x")));
         (GSeq [(PVar "x", (GNT N_expr_block))] (BVariant "Expression" "Block" (BVar "x")));
         (GSeq [(PVar "x", (GNT N_expr_macro_call))] (BVariant "Expression" "MacroCall" (BVar "x")));
         (GSeq [(PVar "x", (GNT N_expr_let))] (BVariant "Expression" "Let" (BVar "x")));
         (GNT N_expr_tuple_or_parenthetical);
         (GSeq [(PVar "x", (GNT N_expr_array))] (BVariant "Expression" "Array" (BVar "x")));
         (GSeq [(PVar "x", (GNT N_character_literal))] (BVariant "Expression" "Character" (BVar "x")));
         (GSeq [(PVar "x", (GNT N_string_literal))] (BVariant "Expression" "String" (BVar "x")));
         (GSeq [(PVar "x", (GNT N_expr_closure))] (BVariant "Expression" "Closure" (BVar "x")));
         (GSeq [(PVar "x", (GNT N_expr_return))] (BVariant "Expression" "Return" (BVar "x")));
         (GSeq [(PVar "x", (GNT N_expr_continue))] (BVariant "Expression" "Continue" (BVar "x")));
         (GSeq [(PVar "x", (GNT N_expr_break))] (BVariant "Expression" "Break" (BVar "x")));
         (GSeq [(PVar "x", (GNT N_number_literal))] (BVariant "Expression" "Number" (BVar "x")));
         (GSeq [(PVar "x", (GNT N_expr_byte))] (BVariant "Expression" "Byte" (BVar "x")));
         (GSeq [(PVar "x", (GNT N_expr_byte_string))] (BVariant "Expression" "ByteString" (BVar "x")));
         (GSeq [(PVar "x", (GNT N_expr_disambiguation))] (BVariant "Expression" "Disambiguation" (BVar "x")));
         (GSeq [(PVar "x", (GNT N_expr_value))] (BVariant "Expression" "Value" (BVar "x")))]
  (* src/parser/expression.rs:866-880 *)
  | N_expr_macro_call =>
      GSeq
        [((PVar "spt"), GPoint);
         ((PVar "name"), (GNT N_pathed_ident));
         ((PVar "_"), t_bang);
         ((PVar "arg"), (GOpt (GNT N_ident)));
         ((PVar "args"), (GNT N_expr_macro_call_args))]
        (BMk "MacroCall" [("extent", (BEx "spt")); ("name", (BVar "name")); ("arg", (BVar "arg")); ("args", (BVar "args")); ("whitespace", BNil)])
  (* src/parser/expression.rs:882-888 *)
  | N_expr_macro_call_args =>
      GAlt
        [(GSeq [(PVar "x", (GNT N_expr_macro_call_paren))] (BVariant "MacroCallArgs" "Paren" (BVar "x")));
         (GSeq [(PVar "x", (GNT N_expr_macro_call_square))] (BVariant "MacroCallArgs" "Square" (BVar "x")));
         (GSeq [(PVar "x", (GNT N_expr_macro_call_curly))] (BVariant "MacroCallArgs" "Curly" (BVar "x")))]
  (* src/parser/expression.rs:890-896 *)
  | N_expr_macro_call_paren =>
      GSeq
        [((PVar "_"), t_left_paren);
         ((PVar "args"), (GNested KLeftParen KRightParen));
         ((PVar "_"), t_right_paren)]
        (BVar "args")
  (* src/parser/expression.rs:898-904 *)
  | N_expr_macro_call_square =>
      GSeq
        [((PVar "_"), t_left_square);
         ((PVar "args"), (GNested KLeftSquare KRightSquare));
         ((PVar "_"), t_right_square)]
        (BVar "args")
  (* src/parser/expression.rs:906-912 *)
  | N_expr_macro_call_curly =>
      GSeq
        [((PVar "_"), t_left_curly);
         ((PVar "args"), (GNested KLeftCurly KRightCurly));
         ((PVar "_"), t_right_curly)]
        (BVar "args")
  (* src/parser/expression.rs:914-928 *)
  | N_expr_let =>
      GSeq
        [((PVar "spt"), GPoint);
         ((PVar "_"), t_kw_let);
         ((PVar "pattern"), (GNT N_pattern));
         ((PVar "typ"), (GOpt (GNT N_expr_let_type)));
         ((PVar "value"), (GOpt (GNT N_expr_let_rhs)))]
        (BMk "Let" [("extent", (BEx "spt")); ("pattern", (BVar "pattern")); ("typ", (BVar "typ")); ("value", (BVar "value")); ("whitespace", BNil)])
  (* src/parser/expression.rs:930-935 *)
  | N_expr_let_type =>
      GSeq
        [((PVar "_"), t_colon);
         ((PVar "typ"), (GNT N_typ))]
        (BVar "typ")
  (* src/parser/expression.rs:937-942 *)
  | N_expr_let_rhs =>
      GSeq
        [((PVar "_"), t_equals);
         ((PVar "value"), (GNT N_expression))]
        (BVar "value")
  (* src/parser/expression.rs:944-959 *)
  | N_expr_if =>
      GSeq
        [((PVar "spt"), GPoint);
         ((PVar "_"), t_kw_if);
         ((PPair (PVar "condition") (PVar "body")), (GNT N_expr_followed_by_block));
         ((PVar "more"), (GMany (GNT N_expr_if_else_if)));
         ((PVar "else_body"), (GOpt (GNT N_expr_if_else_end)))]
        (BMk "If" [("extent", (BEx "spt")); ("condition", (BVar "condition")); ("body", (BVar "body")); ("more", (BVar "more")); ("else_body", (BVar "else_body")); ("whitespace", BNil)])
  (* src/parser/expression.rs:961-966 *)
  | N_expr_if_else_if =>
      GSeq
        [((PVar "_"), t_kw_else);
         ((PVar "tail"), (GNT N_expr_if))]
        (BVar "tail")
  (* src/parser/expression.rs:968-973 *)
  | N_expr_if_else_end =>
      GSeq
        [((PVar "_"), t_kw_else);
         ((PVar "else_body"), (GNT N_block))]
        (BVar "else_body")
  (* src/parser/expression.rs:975-980 *)
  | N_expr_followed_by_block =>
      GSeq
        [((PVar "condition"), (GAmb OnlyStructLiterals (GNT N_expression)));
         ((PVar "body"), (GNT N_block))]
        (BPair (BVar "condition") (BVar "body"))
  (* src/parser/expression.rs:982-998 *)
  | N_expr_for_loop =>
      GSeq
        [((PVar "spt"), GPoint);
         ((PVar "label"), (GOpt (GNT N_loop_label)));
         ((PVar "_"), t_kw_for);
         ((PVar "pattern"), (GNT N_pattern));
         ((PVar "_"), t_kw_in);
         ((PPair (PVar "iter") (PVar "body")), (GNT N_expr_followed_by_block))]
        (BMk "ForLoop" [("extent", (BEx "spt")); ("label", (BVar "label")); ("pattern", (BVar "pattern")); ("iter", (BVar "iter")); ("body", (BVar "body")); ("whitespace", BNil)])
  (* src/parser/expression.rs:1000-1005 *)
  | N_loop_label =>
      GSeq
        [((PVar "lifetime"), (GNT N_lifetime));
         ((PVar "_"), t_colon)]
        (BVar "lifetime")
  (* src/parser/expression.rs:1007-1014 *)
  | N_expr_loop =>
      GSeq
        [((PVar "spt"), GPoint);
         ((PVar "label"), (GOpt (GNT N_loop_label)));
         ((PVar "_"), t_kw_loop);
         ((PVar "body"), (GNT N_block))]
        (BMk "Loop" [("extent", (BEx "spt")); ("label", (BVar "label")); ("body", (BVar "body")); ("whitespace", BNil)])
  (* src/parser/expression.rs:1016-1031 *)
  | N_expr_if_let =>
      GSeq
        [((PVar "spt"), GPoint);
         ((PVar "_"), t_kw_if);
         ((PVar "_"), t_kw_let);
         ((PVar "pattern"), (GNT N_pattern));
         ((PVar "_"), t_equals);
         ((PPair (PVar "value") (PVar "body")), (GNT N_expr_followed_by_block))]
        (BMk "IfLet" [("extent", (BEx "spt")); ("pattern", (BVar "pattern")); ("value", (BVar "value")); ("body", (BVar "body")); ("whitespace", BNil)])
  (* src/parser/expression.rs:1033-1046 *)
  | N_expr_while =>
      GSeq
        [((PVar "spt"), GPoint);
         ((PVar "label"), (GOpt (GNT N_loop_label)));
         ((PVar "_"), t_kw_while);
         ((PPair (PVar "value") (PVar "body")), (GNT N_expr_followed_by_block))]
        (BMk "While" [("extent", (BEx "spt")); ("label", (BVar "label")); ("value", (BVar "value")); ("body", (BVar "body")); ("whitespace", BNil)])
  (* src/parser/expression.rs:1048-1065 *)
  | N_expr_while_let =>
      GSeq
        [((PVar "spt"), GPoint);
         ((PVar "label"), (GOpt (GNT N_loop_label)));
         ((PVar "_"), t_kw_while);
         ((PVar "_"), t_kw_let);
         ((PVar "pattern"), (GNT N_pattern));
         ((PVar "_"), t_equals);
         ((PPair (PVar "value") (PVar "body")), (GNT N_expr_followed_by_block))]
        (BMk "WhileLet" [("extent", (BEx "spt")); ("label", (BVar "label")); ("pattern", (BVar "pattern")); ("value", (BVar "value")); ("body", (BVar "body")); ("whitespace", BNil)])
  (* src/parser/expression.rs:1076-1085 *)
  | N_expr_match =>
      GSeq
        [((PVar "spt"), GPoint);
         ((PVar "_"), t_kw_match);
         ((PVar "head"), (GAmb OnlyStructLiterals (GNT N_expression)));
         ((PVar "_"), t_left_curly);
         ((PVar "arms"), (implicit_values t_comma (GNT N_match_arm)));
         ((PVar "_"), t_right_curly)]
        (BMk "Match" [("extent", (BEx "spt")); ("head", (BVar "head")); ("arms", (BVar "arms")); ("whitespace", BNil)])
  (* src/parser/expression.rs:1087-1096 *)
  | N_match_arm =>
      GSeq
        [((PVar "spt"), GPoint);
         ((PVar "attributes"), (GMany (GNT N_attribute)));
         ((PVar "pattern"), (tailed1_values t_pipe (GNT N_pattern)));
         ((PVar "guard"), (GOpt (GNT N_match_arm_guard)));
         ((PVar "_"), t_thick_arrow);
         ((PVar "hand"), (GNT N_match_arm_hand))]
        (BMk "MatchArm" [("extent", (BEx "spt")); ("attributes", (BVar "attributes")); ("pattern", (BVar "pattern")); ("guard", (BVar "guard")); ("hand", (BVar "hand")); ("whitespace", BNil)])
  (* src/parser/expression.rs:1098-1103 *)
  | N_match_arm_guard =>
      GSeq
        [((PVar "_"), t_kw_if);
         ((PVar "guard"), (GAmb Unambiguous (GNT N_expression)))]
        (BVar "guard")
  (* src/parser/expression.rs:1105-1110 *)
  | N_match_arm_hand =>
      GAlt
        [(GSeq [((PVar "b"), (GAmb Unambiguous (GNT N_expr_block)))] (BVariant "MatchHand" "Brace" (attributed_from (BVariant "Expression" "Block" (BVar "b")))));
         (GSeq [(PVar "x", (GAmb Unambiguous (GNT N_expression)))] (BVariant "MatchHand" "Expression" (BVar "x")))]
  (* src/parser/expression.rs:1112-1135 *)
  | N_expr_tuple_or_parenthetical =>
      GSeq
        [(PVar "spt", GPoint);
         (PVar "_", t_left_paren);
         (PVar "values", GAmb Unambiguous (GTailed BNil t_comma (GNT N_expression)));
         (PVar "_", t_right_paren)]
        (BParen (BEx "spt") (BVar "values"))
  (* src/parser/expression.rs:1137-1142 *)
  | N_expr_array =>
      GAlt
        [(GSeq [(PVar "x", (GNT N_expr_array_explicit))] (BVariant "Array" "Explicit" (BVar "x")));
         (GSeq [(PVar "x", (GNT N_expr_array_repeated))] (BVariant "Array" "Repeated" (BVar "x")))]
  (* src/parser/expression.rs:1144-1155 *)
  | N_expr_array_explicit =>
      GSeq
        [((PVar "spt"), GPoint);
         ((PVar "_"), t_left_square);
         ((PVar "values"), (GAmb Unambiguous (tailed_values BNil t_comma (GNT N_expression))));
         ((PVar "_"), t_right_square)]
        (BMk "ArrayExplicit" [("extent", (BEx "spt")); ("values", (BVar "values")); ("whitespace", BNil)])
  (* src/parser/expression.rs:1157-1171 *)
  | N_expr_array_repeated =>
      GSeq
        [((PVar "spt"), GPoint);
         ((PVar "_"), t_left_square);
         ((PVar "value"), (GAmb Unambiguous (GNT N_expression)));
         ((PVar "_"), t_semicolon);
         ((PVar "count"), (GNT N_expression));
         ((PVar "_"), t_right_square)]
        (BMk "ArrayRepeated" [("extent", (BEx "spt")); ("value", (BVar "value")); ("count", (BVar "count")); ("whitespace", BNil)])
  (* src/parser/expression.rs:1173-1176 *)
  | N_expr_byte =>
      GSeq [((PVar "extent"), t_byte)] (BMk "Byte" [("extent", (BVar "extent")); ("value", (BMk "Character" [("extent", (BVar "extent")); ("value", (BVar "extent"))]))])
  (* src/parser/expression.rs:1178-1187 *)
  | N_expr_byte_string =>
      GAlt
        [(GSeq [((PVar "extent"), t_byte_string)] (BMk "ByteString" [("extent", (BVar "extent")); ("value", (BMk "String" [("extent", (BVar "extent")); ("value", (BVar "extent"))]))]));
         (GSeq [((PVar "extent"), t_byte_string_raw)] (BMk "ByteString" [("extent", (BVar "extent")); ("value", (BMk "String" [("extent", (BVar "extent")); ("value", (BVar "extent"))]))]))]
  (* src/parser/expression.rs:1189-1207 *)
  | N_expr_closure =>
      GSeq
        [((PVar "spt"), GPoint);
         ((PVar "is_async"), (GOpt t_kw_async));
         ((PVar "is_move"), (GOpt t_kw_move));
         ((PVar "_"), t_pipe);
         ((PVar "args"), (tailed_values BNil t_comma (GNT N_expr_closure_arg)));
         ((PVar "_"), t_pipe);
         ((PPair (PVar "return_type") (PVar "body")), (GNT N_expr_closure_return))]
        (BMk "Closure" [("extent", (BEx "spt")); ("is_async", (BVar "is_async")); ("is_move", (BVar "is_move")); ("args", (BVar "args")); ("return_type", (BVar "return_type")); ("body", (BVar "body")); ("whitespace", BNil)])
  (* src/parser/expression.rs:1209-1220 *)
  | N_expr_closure_arg =>
      GSeq
        [((PVar "spt"), GPoint);
         ((PVar "name"), (GNT N_pattern));
         ((PVar "typ"), (GOpt (GNT N_expr_closure_arg_type)))]
        (BMk "ClosureArg" [("extent", (BEx "spt")); ("name", (BVar "name")); ("typ", (BVar "typ")); ("whitespace", BNil)])
  (* src/parser/expression.rs:1222-1227 *)
  | N_expr_closure_arg_type =>
      GSeq
        [((PVar "_"), t_colon);
         ((PVar "typ"), (GNT N_typ))]
        (BVar "typ")
  (* src/parser/expression.rs:1229-1236 *)
  | N_expr_closure_return =>
      GAlt
        [(GNT N_expr_closure_return_explicit);
         (GNT N_expr_closure_return_inferred)]
  (* src/parser/expression.rs:1238-1246 *)
  | N_expr_closure_return_explicit =>
      GSeq
        [((PVar "_"), t_thin_arrow);
         ((PVar "typ"), (GNT N_typ));
         ((PVar "body"), (GNT N_expr_closure_return_body))]
        (BPair (BSome (BVar "typ")) (attributed_from (BVar "body")))
  (* src/parser/expression.rs:1248-1255 *)
  | N_expr_closure_return_body =>
      GAlt
        [(GNT N_expr_tuple_or_parenthetical);
         (GSeq [(PVar "x", (GNT N_expr_block))] (BVariant "Expression" "Block" (BVar "x")))]
  (* src/parser/expression.rs:1257-1261 *)
  | N_expr_closure_return_inferred =>
      GSeq [((PVar "body"), (GNT N_expression))] (BPair BNone (BVar "body"))
  (* src/parser/expression.rs:1263-1273 *)
  | N_expr_return =>
      GSeq
        [((PVar "spt"), GPoint);
         ((PVar "_"), t_kw_return);
         ((PVar "value"), (GOpt (GNT N_expression)))]
        (BMk "Return" [("extent", (BEx "spt")); ("value", (BVar "value")); ("whitespace", BNil)])
  (* src/parser/expression.rs:1275-1281 *)
  | N_expr_continue =>
      GSeq
        [((PVar "spt"), GPoint);
         ((PVar "_"), t_kw_continue);
         ((PVar "label"), (GOpt (GNT N_lifetime)))]
        (BMk "Continue" [("extent", (BEx "spt")); ("label", (BVar "label")); ("whitespace", BNil)])
  (* src/parser/expression.rs:1283-1295 *)
  | N_expr_break =>
      GSeq
        [((PVar "spt"), GPoint);
         ((PVar "_"), t_kw_break);
         ((PVar "label"), (GOpt (GNT N_lifetime)));
         ((PVar "value"), (GOpt (GNT N_expression)))]
        (BMk "Break" [("extent", (BEx "spt")); ("label", (BVar "label")); ("value", (BVar "value")); ("whitespace", BNil)])
  (* src/parser/expression.rs:1297-1303 *)
  | N_expr_block =>
      GIfMax BlockNotAllowedHere (GNT N_block)
  (* src/parser/expression.rs:1305-1311 *)
  | N_expr_unsafe_block =>
      GSeq
        [((PVar "spt"), GPoint);
         ((PVar "_"), t_kw_unsafe);
         ((PVar "body"), (GNT N_block))]
        (BMk "UnsafeBlock" [("extent", (BEx "spt")); ("body", (BVar "body")); ("whitespace", BNil)])
  (* src/parser/expression.rs:1313-1325 *)
  | N_expr_async_block =>
      GSeq
        [((PVar "spt"), GPoint);
         ((PVar "_"), t_kw_async);
         ((PVar "is_move"), (GOpt t_kw_move));
         ((PVar "body"), (GNT N_block))]
        (BMk "AsyncBlock" [("extent", (BEx "spt")); ("body", (BVar "body")); ("is_move", (BVar "is_move")); ("whitespace", BNil)])
  (* src/parser/expression.rs:1327-1350 *)
  | N_expr_value =>
      GIfAmb
        (GSeq
          [(PVar "spt", GPoint);
           (PVar "name", GNT N_pathed_ident)]
          (BMk "Value" [("extent", BEx "spt"); ("name", BVar "name"); ("literal", BNone); ("whitespace", BNil)]))
        (GSeq
          [(PVar "spt", GPoint);
           (PVar "name", GNT N_pathed_ident);
           (PVar "literal", GOpt (GNT N_expr_value_struct_literal))]
          (BMk "Value" [("extent", BEx "spt"); ("name", BVar "name"); ("literal", BVar "literal"); ("whitespace", BNil)]))
  (* src/parser/expression.rs:1352-1365 *)
  | N_expr_value_struct_literal =>
      GSeq
        [((PVar "spt"), GPoint);
         ((PVar "_"), t_left_curly);
         ((PVar "fields"), (tailed_values BNil t_comma (GNT N_expr_value_struct_literal_field)));
         ((PVar "splat"), (GOpt (GNT N_expr_value_struct_literal_splat)));
         ((PVar "_"), t_right_curly)]
        (BMk "StructLiteral" [("extent", (BEx "spt")); ("fields", (BVar "fields")); ("splat", (BVar "splat")); ("whitespace", BNil)])
  (* src/parser/expression.rs:1367-1382 *)
  | N_expr_value_struct_literal_field =>
      GSeq
        [(PVar "spt", GPoint);
         (PVar "name", GNT N_ident);
         (PVar "mpt", GPoint);
         (PVar "value", GOpt (GNT N_expr_value_struct_literal_field_value))]
        (BMk "StructLiteralField"
           [("extent", BExTo "spt" "spt");
            ("name", BVar "name");
            ("value", BUnwrapOr (BVar "value")
               (attributed_from (BVariant "Expression" "Value"
                  (BMk "Value" [("extent", BExTo "spt" "mpt"); ("name", pathed_ident_from (BVar "name")); ("literal", BNone); ("whitespace", BNil)]))));
            ("whitespace", BNil)])
  (* src/parser/expression.rs:1384-1391 *)
  | N_expr_value_struct_literal_field_value =>
      GSeq
        [((PVar "_"), t_colon);
         ((PVar "value"), (GAmb Unambiguous (GNT N_expression)))]
        (BVar "value")
  (* src/parser/expression.rs:1393-1400 *)
  | N_expr_value_struct_literal_splat =>
      GSeq
        [((PVar "_"), t_double_period);
         ((PVar "value"), (GAmb Unambiguous (GNT N_expression)))]
        (BVar "value")
  (* src/parser/expression.rs:1402-1414 *)
  | N_expr_disambiguation =>
      GSeq
        [((PVar "spt"), GPoint);
         ((PVar "core"), (GNT N_disambiguation_core));
         ((PVar "components"), (GResume t_double_colon (GNT N_path_component)))]
        (BMk "Disambiguation" [("extent", (BEx "spt")); ("from_type", (BField "from_type" (BVar "core"))); ("to_type", (BField "to_type" (BVar "core"))); ("components", (BVar "components")); ("whitespace", (BField "whitespace" (BVar "core")))])
  end.

(** The type each function returns (its [Progress<'s, _>] signature). *)
Definition nt_type (n : nt) : ty :=
  match n with
  | N_item => TN "Item"
  | N_function => TN "Function"
  | N_function_header => TN "FunctionHeader"
  | N_function_qualifiers => TN "FunctionQualifiers"
  | N_function_qualifier_extern => TPair TExt (TOpt (TN "String"))
  | N_ident => TN "Ident"
  | N_generic_declarations => TN "GenericDeclarations"
  | N_generic_declaration_lifetime => TN "GenericDeclarationLifetime"
  | N_generic_declaration_lifetime_bounds => TList (TN "Lifetime")
  | N_generic_declaration_type => TN "GenericDeclarationType"
  | N_generic_declaration_type_bounds => TN "TraitBounds"
  | N_generic_declaration_type_default => TN "Type"
  | N_generic_declaration_const => TN "GenericDeclarationConst"
  | N_function_arglist => TList (TN "Argument")
  | N_self_argument => TN "SelfArgument"
  | N_self_argument_longhand => TN "SelfArgumentLonghand"
  | N_self_argument_shorthand => TN "SelfArgumentShorthand"
  | N_self_argument_qualifier => TN "SelfArgumentShorthandQualifier"
  | N_function_argument => TN "Argument"
  | N_function_return_type => TN "Type"
  | N_where_clause => TList (TN "Where")
  | N_where_clause_item => TN "Where"
  | N_where_clause_kind => TN "WhereKind"
  | N_where_lifetime => TN "WhereLifetime"
  | N_where_type => TN "WhereType"
  | N_trait_bounds => TN "TraitBounds"
  | N_trait_bound => TN "TraitBound"
  | N_trait_bound_lifetime => TN "TraitBoundLifetime"
  | N_trait_bound_normal => TN "TraitBoundNormal"
  | N_trait_bound_normal_child => TN "TraitBoundType"
  | N_trait_bound_relaxed => TN "TraitBoundRelaxed"
  | N_block => TN "Block"
  | N_statement => TN "Statement"
  | N_statement_empty => TExt
  | N_item_macro_call => TN "MacroCall"
  | N_item_macro_call_args => TN "MacroCallArgs"
  | N_item_macro_call_paren => TExt
  | N_item_macro_call_square => TExt
  | N_item_macro_call_curly => TExt
  | N_character_literal => TN "Character"
  | N_string_literal => TN "String"
  | N_number_literal => TN "Number"
  | N_path => TN "Path"
  | N_pathed_ident => TN "PathedIdent"
  | N_path_component => TN "PathComponent"
  | N_turbofish => TN "Turbofish"
  | N_pattern => TN "Pattern"
  | N_pattern_name => TN "PatternName"
  | N_pattern_kind => TN "PatternKind"
  | N_pattern_ident => TN "PatternIdent"
  | N_pattern_tuple => TN "PatternTuple"
  | N_pattern_tuple_member => TN "PatternTupleMember"
  | N_pattern_slice => TN "PatternSlice"
  | N_pattern_slice_member => TN "PatternSliceMember"
  | N_pattern_slice_subslice => TN "PatternSliceSubslice"
  | N_pattern_struct => TN "PatternStruct"
  | N_pattern_struct_field => TN "PatternStructField"
  | N_pattern_struct_field_long => TN "PatternStructFieldLong"
  | N_pattern_byte => TN "PatternByte"
  | N_pattern_char => TN "PatternCharacter"
  | N_pattern_byte_string => TN "PatternByteString"
  | N_pattern_string => TN "PatternString"
  | N_pattern_number => TN "PatternNumber"
  | N_pattern_reference => TN "PatternReference"
  | N_pattern_box => TN "PatternBox"
  | N_pattern_range_exclusive => TN "PatternRangeExclusive"
  | N_range_inclusive_operator => TN "RangeInclusiveOperator"
  | N_pattern_range_inclusive => TN "PatternRangeInclusive"
  | N_pattern_range_component => TN "PatternRangeComponent"
  | N_pattern_macro_call => TN "PatternMacroCall"
  | N_p_struct => TN "Struct"
  | N_struct_defn_body => TPair (TN "StructDefinitionBody") (TOpt (TList (TN "Where")))
  | N_struct_defn_body_brace => TPair (TN "StructDefinitionBodyBrace") (TOpt (TList (TN "Where")))
  | N_struct_defn_body_brace_only => TN "StructDefinitionBodyBrace"
  | N_struct_defn_body_tuple => TPair (TN "StructDefinitionBodyTuple") (TOpt (TList (TN "Where")))
  | N_struct_defn_body_tuple_only => TList (TN "Attributed<StructDefinitionFieldUnnamed>")
  | N_tuple_defn_field => TN "StructDefinitionFieldUnnamed"
  | N_struct_defn_field => TN "StructDefinitionFieldNamed"
  | N_p_union => TN "Union"
  | N_p_enum => TN "Enum"
  | N_enum_variant => TN "EnumVariant"
  | N_enum_variant_body => TN "EnumVariantBody"
  | N_enum_discriminant => TN "Attributed<Expression>"
  | N_p_trait => TN "Trait"
  | N_trait_impl_member => TN "TraitMember"
  | N_trait_member_function => TN "TraitMemberFunction"
  | N_trait_member_type => TN "TraitMemberType"
  | N_trait_member_const => TN "TraitMemberConst"
  | N_trait_member_const_value => TN "Attributed<Expression>"
  | N_visibility => TN "Visibility"
  | N_visibility_public => TN "VisibilityPublic"
  | N_visibility_public_qualifier => TN "VisibilityPublicQualifier"
  | N_visibility_qualifier_kind => TN "VisibilityPublicQualifier"
  | N_trait_impl_function_header => TN "TraitImplFunctionHeader"
  | N_trait_impl_function_arglist => TList (TN "TraitImplArgument")
  | N_trait_impl_function_argument => TN "TraitImplArgument"
  | N_trait_impl_function_argument_name => TN "Pattern"
  | N_trait_impl_function_body => TOpt (TN "Block")
  | N_p_impl => TN "Impl"
  | N_p_impl_kind => TN "ImplKind"
  | N_p_impl_of_inherent => TN "ImplOfInherent"
  | N_p_impl_of_trait => TN "ImplOfTrait"
  | N_type_or_wildcard => TN "ImplOfTraitType"
  | N_impl_member => TN "ImplMember"
  | N_impl_function => TN "ImplFunction"
  | N_impl_type => TN "ImplType"
  | N_impl_const => TN "ImplConst"
  | N_p_const => TN "Const"
  | N_p_static => TN "Static"
  | N_extern_crate => TN "Crate"
  | N_extern_crate_rename => TN "Ident"
  | N_extern_block => TN "ExternBlock"
  | N_extern_block_member => TN "ExternBlockMember"
  | N_extern_block_static => TN "ExternBlockMemberStatic"
  | N_extern_block_type => TN "ExternBlockMemberType"
  | N_extern_block_member_function => TN "ExternBlockMemberFunction"
  | N_extern_block_function_arglist => TList (TN "ExternBlockMemberFunctionArgument")
  | N_extern_block_function_argument => TN "ExternBlockMemberFunctionArgument"
  | N_extern_block_function_argument_named => TN "ExternBlockMemberFunctionArgumentNamed"
  | N_extern_block_function_argument_variadic => TN "ExternBlockMemberFunctionArgumentVariadic"
  | N_p_use => TN "Use"
  | N_use_path => TN "UsePath"
  | N_use_path_component => TN "Ident"
  | N_path_member => TN "Ident"
  | N_use_tail => TN "UseTail"
  | N_use_tail_ident => TN "UseTailIdent"
  | N_use_tail_ident_rename => TN "Ident"
  | N_use_tail_glob => TN "UseTailGlob"
  | N_use_tail_multi => TN "UseTailMulti"
  | N_type_alias => TN "TypeAlias"
  | N_module => TN "Module"
  | N_module_body_or_not => TOpt (TList (TN "Attributed<Item>"))
  | N_module_body => TList (TN "Attributed<Item>")
  | N_typ => TN "Type"
  | N_typ_single => TN "Type"
  | N_typ_kind => TN "TypeKind"
  | N_typ_reference => TN "TypeReference"
  | N_typ_reference_kind => TN "TypeReferenceKind"
  | N_typ_pointer => TN "TypePointer"
  | N_typ_pointer_kind => TN "TypePointerKind"
  | N_typ_tuple => TN "TypeTuple"
  | N_typ_higher_ranked_trait_bounds => TN "TypeHigherRankedTraitBounds"
  | N_higher_ranked_trait_bounds => TList (TN "Lifetime")
  | N_typ_higher_ranked_trait_bounds_child => TN "TypeHigherRankedTraitBoundsChild"
  | N_typ_dyn_trait => TN "TypeDynTrait"
  | N_typ_impl_trait => TN "TypeImplTrait"
  | N_typ_additional => TN "TypeAdditional"
  | N_typ_named => TN "TypeNamed"
  | N_typ_named_component => TN "TypeNamedComponent"
  | N_typ_disambiguation => TN "TypeDisambiguation"
  | N_disambiguation_core => TN "DisambiguationCore"
  | N_disambiguation_core_to_type => TN "TypeNamed"
  | N_typ_array => TN "TypeArray"
  | N_typ_slice => TN "TypeSlice"
  | N_typ_generics => TN "TypeGenerics"
  | N_typ_generics_fn => TN "TypeGenericsFunction"
  | N_typ_generics_angle => TN "TypeGenericsAngle"
  | N_typ_generics_angle_member => TN "TypeGenericsAngleMember"
  | N_associated_type => TN "AssociatedType"
  | N_associated_type_value => TN "AssociatedTypeValue"
  | N_associated_type_value_equal => TN "AssociatedTypeValueEqual"
  | N_associated_type_value_bound => TN "AssociatedTypeValueBound"
  | N_typ_function => TN "TypeFunction"
  | N_typ_function_argument => TN "TypeFunctionArgument"
  | N_typ_function_argument_name => TN "Ident"
  | N_typ_function_argument_variadic => TN "TypeFunctionArgument"
  | N_lifetime => TN "Lifetime"
  | N_attribute => TN "Attribute"
  | N_attribute_literal => TN "AttributeLiteral"
  | N_attribute_containing => TN "AttributeContaining"
  | N_attribute_containing_literal => TN "AttributeContainingLiteral"
  | N_expression => TN "Attributed<Expression>"
  | N_statement_expression => TN "Attributed<Expression>"
  | N_expression_prefix_or_atom => TN "PrefixOrAtom"
  | N_expression_infix_or_postfix => TN "InfixOrPostfix"
  | N_operator_prefix => TN "OperatorPrefix"
  | N_operator_prefix_reference => TN "OperatorPrefix"
  | N_operator_infix => TN "OperatorInfix"
  | N_operator_postfix => TN "OperatorPostfix"
  | N_operator_postfix_limited => TN "OperatorPostfix"
  | N_operator_postfix_as_type => TN "OperatorPostfix"
  | N_operator_postfix_ascription => TN "OperatorPostfix"
  | N_operator_postfix_call => TN "OperatorPostfix"
  | N_operator_postfix_field_access => TN "OperatorPostfix"
  | N_field_name => TN "FieldName"
  | N_field_name_number => TExt
  | N_operator_postfix_slice => TN "OperatorPostfix"
  | N_expression_atom => TN "Expression"
  | N_expr_macro_call => TN "MacroCall"
  | N_expr_macro_call_args => TN "MacroCallArgs"
  | N_expr_macro_call_paren => TExt
  | N_expr_macro_call_square => TExt
  | N_expr_macro_call_curly => TExt
  | N_expr_let => TN "Let"
  | N_expr_let_type => TN "Type"
  | N_expr_let_rhs => TN "Attributed<Expression>"
  | N_expr_if => TN "If"
  | N_expr_if_else_if => TN "If"
  | N_expr_if_else_end => TN "Block"
  | N_expr_followed_by_block => TPair (TN "Attributed<Expression>") (TN "Block")
  | N_expr_for_loop => TN "ForLoop"
  | N_loop_label => TN "Lifetime"
  | N_expr_loop => TN "Loop"
  | N_expr_if_let => TN "IfLet"
  | N_expr_while => TN "While"
  | N_expr_while_let => TN "WhileLet"
  | N_expr_match => TN "Match"
  | N_match_arm => TN "MatchArm"
  | N_match_arm_guard => TN "Attributed<Expression>"
  | N_match_arm_hand => TN "MatchHand"
  | N_expr_tuple_or_parenthetical => TN "Expression"
  | N_expr_array => TN "Array"
  | N_expr_array_explicit => TN "ArrayExplicit"
  | N_expr_array_repeated => TN "ArrayRepeated"
  | N_expr_byte => TN "Byte"
  | N_expr_byte_string => TN "ByteString"
  | N_expr_closure => TN "Closure"
  | N_expr_closure_arg => TN "ClosureArg"
  | N_expr_closure_arg_type => TN "Type"
  | N_expr_closure_return => TPair (TOpt (TN "Type")) (TN "Attributed<Expression>")
  | N_expr_closure_return_explicit => TPair (TOpt (TN "Type")) (TN "Attributed<Expression>")
  | N_expr_closure_return_body => TN "Expression"
  | N_expr_closure_return_inferred => TPair (TOpt (TN "Type")) (TN "Attributed<Expression>")
  | N_expr_return => TN "Return"
  | N_expr_continue => TN "Continue"
  | N_expr_break => TN "Break"
  | N_expr_block => TN "Block"
  | N_expr_unsafe_block => TN "UnsafeBlock"
  | N_expr_async_block => TN "AsyncBlock"
  | N_expr_value => TN "Value"
  | N_expr_value_struct_literal => TN "StructLiteral"
  | N_expr_value_struct_literal_field => TN "StructLiteralField"
  | N_expr_value_struct_literal_field_value => TN "Attributed<Expression>"
  | N_expr_value_struct_literal_splat => TN "Attributed<Expression>"
  | N_expr_disambiguation => TN "Disambiguation"
  end.
