(** The AST types: src/ast.rs, generated by tools/gen_schema.py (no manual edits).

    A struct is its list of fields in declaration order; the flag says whether
    the derived [Visit] implementation visits the field (no [#[visit(ignore)]]).
    An enum is its list of variants with the type of their payload, if any.
    [Box<T>] is [T]. *)

From Coq Require Import String List.
Import ListNotations.
Local Open Scope string_scope.

(** Types of values handled by the parser. *)
Inductive ty : Type :=
| TExt | TBool | TNat | TPoint | TNumber | TUnit
| TOpt (t : ty) | TList (t : ty) | TPair (a b : ty)
| TN (name : string).

Definition structs : list (string * list (string * ty * bool)) :=
  [
   (* src/ast.rs:14-17 *)
   ("File", [("items", (TList (TN "Attributed<Item>")), true); ("whitespace", (TList (TN "Whitespace")), true)]);
   (* src/ast.rs:54-58 *)
   ("AttributeLiteral", [("extent", TExt, true); ("text", TExt, true); ("whitespace", (TList (TN "Whitespace")), true)]);
   (* src/ast.rs:76-80 *)
   ("AttributeContainingLiteral", [("extent", TExt, true); ("text", TExt, true); ("whitespace", (TList (TN "Whitespace")), true)]);
   (* src/ast.rs:90-93 *)
   ("Lifetime", [("extent", TExt, true); ("name", (TN "Ident"), true)]);
   (* src/ast.rs:115-120 *)
   ("Use", [("extent", TExt, true); ("visibility", (TOpt (TN "Visibility")), true); ("path", (TN "UsePath"), true); ("whitespace", (TList (TN "Whitespace")), true)]);
   (* src/ast.rs:131-136 *)
   ("UsePath", [("extent", TExt, true); ("path", (TList (TN "Ident")), true); ("tail", (TN "UseTail"), true); ("whitespace", (TList (TN "Whitespace")), true)]);
   (* src/ast.rs:154-159 *)
   ("UseTailIdent", [("extent", TExt, true); ("name", (TN "Ident"), true); ("rename", (TOpt (TN "Ident")), true); ("whitespace", (TList (TN "Whitespace")), true)]);
   (* src/ast.rs:170-172 *)
   ("UseTailGlob", [("extent", TExt, true)]);
   (* src/ast.rs:184-188 *)
   ("UseTailMulti", [("extent", TExt, true); ("paths", (TList (TN "UsePath")), true); ("whitespace", (TList (TN "Whitespace")), true)]);
   (* src/ast.rs:199-204 *)
   ("Function", [("extent", TExt, true); ("header", (TN "FunctionHeader"), true); ("body", (TN "Block"), true); ("whitespace", (TList (TN "Whitespace")), true)]);
   (* src/ast.rs:217-227 *)
   ("FunctionHeader", [("extent", TExt, true); ("visibility", (TOpt (TN "Visibility")), true); ("qualifiers", (TN "FunctionQualifiers"), true); ("name", (TN "Ident"), true); ("generics", (TOpt (TN "GenericDeclarations")), true); ("arguments", (TList (TN "Argument")), true); ("return_type", (TOpt (TN "Type")), true); ("wheres", (TList (TN "Where")), true); ("whitespace", (TList (TN "Whitespace")), true)]);
   (* src/ast.rs:238-249 *)
   ("FunctionQualifiers", [("extent", TExt, true); ("is_default", (TOpt TExt), true); ("is_const", (TOpt TExt), true); ("is_unsafe", (TOpt TExt), true); ("is_async", (TOpt TExt), true); ("is_extern", (TOpt TExt), true); ("abi", (TOpt (TN "String")), true); ("whitespace", (TList (TN "Whitespace")), true)]);
   (* src/ast.rs:260-270 *)
   ("TraitImplFunctionHeader", [("extent", TExt, true); ("visibility", (TOpt (TN "Visibility")), true); ("qualifiers", (TN "FunctionQualifiers"), true); ("name", (TN "Ident"), true); ("generics", (TOpt (TN "GenericDeclarations")), true); ("arguments", (TList (TN "TraitImplArgument")), true); ("return_type", (TOpt (TN "Type")), true); ("wheres", (TList (TN "Where")), true); ("whitespace", (TList (TN "Whitespace")), true)]);
   (* src/ast.rs:282-288 *)
   ("GenericDeclarations", [("extent", TExt, true); ("lifetimes", (TList (TN "Attributed<GenericDeclarationLifetime>")), true); ("types", (TList (TN "Attributed<GenericDeclarationType>")), true); ("consts", (TList (TN "Attributed<GenericDeclarationConst>")), true); ("whitespace", (TList (TN "Whitespace")), true)]);
   (* src/ast.rs:299-304 *)
   ("GenericDeclarationLifetime", [("extent", TExt, true); ("name", (TN "Lifetime"), true); ("bounds", (TList (TN "Lifetime")), true); ("whitespace", (TList (TN "Whitespace")), true)]);
   (* src/ast.rs:315-321 *)
   ("GenericDeclarationType", [("extent", TExt, true); ("name", (TN "Ident"), true); ("bounds", (TOpt (TN "TraitBounds")), true); ("default", (TOpt (TN "Type")), true); ("whitespace", (TList (TN "Whitespace")), true)]);
   (* src/ast.rs:332-337 *)
   ("GenericDeclarationConst", [("extent", TExt, true); ("name", (TN "Ident"), true); ("typ", (TN "Type"), true); ("whitespace", (TList (TN "Whitespace")), true)]);
   (* src/ast.rs:350-355 *)
   ("Type", [("extent", TExt, true); ("kind", (TN "TypeKind"), true); ("additional", (TList (TN "TypeAdditional")), true); ("whitespace", (TList (TN "Whitespace")), true)]);
   (* src/ast.rs:382-387 *)
   ("TypeReference", [("extent", TExt, true); ("kind", (TN "TypeReferenceKind"), true); ("typ", (TN "Type"), true); ("whitespace", (TList (TN "Whitespace")), true)]);
   (* src/ast.rs:399-404 *)
   ("TypeReferenceKind", [("extent", TExt, true); ("lifetime", (TOpt (TN "Lifetime")), true); ("mutable", (TOpt TExt), true); ("whitespace", (TList (TN "Whitespace")), true)]);
   (* src/ast.rs:415-421 *)
   ("TypePointer", [("extent", TExt, true); ("kind", (TN "TypePointerKind"), false); ("typ", (TN "Type"), true); ("whitespace", (TList (TN "Whitespace")), true)]);
   (* src/ast.rs:438-443 *)
   ("TypeArray", [("extent", TExt, true); ("typ", (TN "Type"), true); ("count", (TN "Attributed<Expression>"), true); ("whitespace", (TList (TN "Whitespace")), true)]);
   (* src/ast.rs:454-459 *)
   ("TypeHigherRankedTraitBounds", [("extent", TExt, true); ("lifetimes", (TList (TN "Lifetime")), true); ("child", (TN "TypeHigherRankedTraitBoundsChild"), true); ("whitespace", (TList (TN "Whitespace")), true)]);
   (* src/ast.rs:477-481 *)
   ("TypeDynTrait", [("extent", TExt, true); ("name", (TN "TypeNamed"), true); ("whitespace", (TList (TN "Whitespace")), true)]);
   (* src/ast.rs:492-496 *)
   ("TypeImplTrait", [("extent", TExt, true); ("name", (TN "TypeNamed"), true); ("whitespace", (TList (TN "Whitespace")), true)]);
   (* src/ast.rs:513-517 *)
   ("TypeNamed", [("extent", TExt, true); ("path", (TList (TN "TypeNamedComponent")), true); ("whitespace", (TList (TN "Whitespace")), true)]);
   (* src/ast.rs:528-533 *)
   ("TypeNamedComponent", [("extent", TExt, true); ("ident", (TN "Ident"), true); ("generics", (TOpt (TN "TypeGenerics")), true); ("whitespace", (TList (TN "Whitespace")), true)]);
   (* src/ast.rs:544-550 *)
   ("TypeDisambiguation", [("extent", TExt, true); ("from_type", (TN "Type"), true); ("to_type", (TOpt (TN "TypeNamed")), true); ("path", (TList (TN "TypeNamedComponent")), true); ("whitespace", (TList (TN "Whitespace")), true)]);
   (* src/ast.rs:561-565 *)
   ("TypeSlice", [("extent", TExt, true); ("typ", (TN "Type"), true); ("whitespace", (TList (TN "Whitespace")), true)]);
   (* src/ast.rs:576-580 *)
   ("TypeTuple", [("extent", TExt, true); ("types", (TList (TN "Type")), true); ("whitespace", (TList (TN "Whitespace")), true)]);
   (* src/ast.rs:598-603 *)
   ("TypeGenericsFunction", [("extent", TExt, true); ("types", (TList (TN "Type")), true); ("return_type", (TOpt (TN "Type")), true); ("whitespace", (TList (TN "Whitespace")), true)]);
   (* src/ast.rs:614-618 *)
   ("TypeGenericsAngle", [("extent", TExt, true); ("members", (TList (TN "TypeGenericsAngleMember")), true); ("whitespace", (TList (TN "Whitespace")), true)]);
   (* src/ast.rs:637-642 *)
   ("AssociatedType", [("extent", TExt, true); ("name", (TN "Ident"), true); ("value", (TN "AssociatedTypeValue"), true); ("whitespace", (TList (TN "Whitespace")), true)]);
   (* src/ast.rs:659-663 *)
   ("AssociatedTypeValueEqual", [("extent", TExt, true); ("value", (TN "Type"), true); ("whitespace", (TList (TN "Whitespace")), true)]);
   (* src/ast.rs:674-678 *)
   ("AssociatedTypeValueBound", [("extent", TExt, true); ("bounds", (TN "TraitBounds"), true); ("whitespace", (TList (TN "Whitespace")), true)]);
   (* src/ast.rs:689-695 *)
   ("TypeFunction", [("extent", TExt, true); ("qualifiers", (TN "FunctionQualifiers"), true); ("arguments", (TList (TN "TypeFunctionArgument")), true); ("return_type", (TOpt (TN "Type")), true); ("whitespace", (TList (TN "Whitespace")), true)]);
   (* src/ast.rs:712-717 *)
   ("TypeFunctionArgumentNamed", [("extent", TExt, true); ("name", (TOpt (TN "Ident")), true); ("typ", (TN "Type"), true); ("whitespace", (TList (TN "Whitespace")), true)]);
   (* src/ast.rs:728-730 *)
   ("Ident", [("extent", TExt, true)]);
   (* src/ast.rs:742-747 *)
   ("Path", [("extent", TExt, true); ("components", (TList (TN "Ident")), true); ("whitespace", (TList (TN "Whitespace")), true)]);
   (* src/ast.rs:759-763 *)
   ("PathedIdent", [("extent", TExt, true); ("components", (TList (TN "PathComponent")), true); ("whitespace", (TList (TN "Whitespace")), true)]);
   (* src/ast.rs:791-796 *)
   ("PathComponent", [("extent", TExt, true); ("ident", (TN "Ident"), true); ("turbofish", (TOpt (TN "Turbofish")), true); ("whitespace", (TList (TN "Whitespace")), true)]);
   (* src/ast.rs:807-812 *)
   ("Turbofish", [("extent", TExt, true); ("lifetimes", (TList (TN "Lifetime")), true); ("types", (TList (TN "Type")), true); ("whitespace", (TList (TN "Whitespace")), true)]);
   (* src/ast.rs:822-829 *)
   ("Const", [("extent", TExt, true); ("visibility", (TOpt (TN "Visibility")), true); ("name", (TN "Ident"), true); ("typ", (TN "Type"), true); ("value", (TN "Attributed<Expression>"), true); ("whitespace", (TList (TN "Whitespace")), true)]);
   (* src/ast.rs:839-847 *)
   ("Static", [("extent", TExt, true); ("visibility", (TOpt (TN "Visibility")), true); ("is_mut", (TOpt TExt), true); ("name", (TN "Ident"), true); ("typ", (TN "Type"), true); ("value", (TN "Attributed<Expression>"), true); ("whitespace", (TList (TN "Whitespace")), true)]);
   (* src/ast.rs:858-866 *)
   ("Struct", [("extent", TExt, true); ("visibility", (TOpt (TN "Visibility")), true); ("name", (TN "Ident"), true); ("generics", (TOpt (TN "GenericDeclarations")), true); ("wheres", (TList (TN "Where")), true); ("body", (TN "StructDefinitionBody"), true); ("whitespace", (TList (TN "Whitespace")), true)]);
   (* src/ast.rs:884-888 *)
   ("StructDefinitionBodyBrace", [("extent", TExt, true); ("fields", (TList (TN "Attributed<StructDefinitionFieldNamed>")), true); ("whitespace", (TList (TN "Whitespace")), true)]);
   (* src/ast.rs:899-905 *)
   ("StructDefinitionFieldNamed", [("extent", TExt, true); ("visibility", (TOpt (TN "Visibility")), true); ("name", (TN "Ident"), true); ("typ", (TN "Type"), true); ("whitespace", (TList (TN "Whitespace")), true)]);
   (* src/ast.rs:916-920 *)
   ("StructDefinitionBodyTuple", [("extent", TExt, true); ("fields", (TList (TN "Attributed<StructDefinitionFieldUnnamed>")), true); ("whitespace", (TList (TN "Whitespace")), true)]);
   (* src/ast.rs:931-936 *)
   ("StructDefinitionFieldUnnamed", [("extent", TExt, true); ("visibility", (TOpt (TN "Visibility")), true); ("typ", (TN "Type"), true); ("whitespace", (TList (TN "Whitespace")), true)]);
   (* src/ast.rs:946-954 *)
   ("Union", [("extent", TExt, true); ("visibility", (TOpt (TN "Visibility")), true); ("name", (TN "Ident"), true); ("generics", (TOpt (TN "GenericDeclarations")), true); ("wheres", (TList (TN "Where")), true); ("fields", (TList (TN "Attributed<StructDefinitionFieldNamed>")), true); ("whitespace", (TList (TN "Whitespace")), true)]);
   (* src/ast.rs:964-972 *)
   ("Enum", [("extent", TExt, true); ("visibility", (TOpt (TN "Visibility")), true); ("name", (TN "Ident"), true); ("generics", (TOpt (TN "GenericDeclarations")), true); ("wheres", (TList (TN "Where")), true); ("variants", (TList (TN "Attributed<EnumVariant>")), true); ("whitespace", (TList (TN "Whitespace")), true)]);
   (* src/ast.rs:983-988 *)
   ("EnumVariant", [("extent", TExt, true); ("name", (TN "Ident"), true); ("body", (TN "EnumVariantBody"), true); ("whitespace", (TList (TN "Whitespace")), true)]);
   (* src/ast.rs:1018-1024 *)
   ("SelfArgumentLonghand", [("extent", TExt, true); ("is_mut", (TOpt TExt), true); ("name", (TN "Ident"), true); ("typ", (TN "Type"), true); ("whitespace", (TList (TN "Whitespace")), true)]);
   (* src/ast.rs:1035-1040 *)
   ("SelfArgumentShorthand", [("extent", TExt, true); ("qualifier", (TOpt (TN "SelfArgumentShorthandQualifier")), true); ("name", (TN "Ident"), true); ("whitespace", (TList (TN "Whitespace")), true)]);
   (* src/ast.rs:1057-1062 *)
   ("NamedArgument", [("extent", TExt, true); ("name", (TN "Pattern"), true); ("typ", (TN "Type"), true); ("whitespace", (TList (TN "Whitespace")), true)]);
   (* src/ast.rs:1081-1086 *)
   ("TraitImplArgumentNamed", [("extent", TExt, true); ("name", (TOpt (TN "Pattern")), true); ("typ", (TN "Type"), true); ("whitespace", (TList (TN "Whitespace")), true)]);
   (* src/ast.rs:1098-1103 *)
   ("Where", [("extent", TExt, true); ("higher_ranked_trait_bounds", (TList (TN "Lifetime")), true); ("kind", (TN "WhereKind"), true); ("whitespace", (TList (TN "Whitespace")), true)]);
   (* src/ast.rs:1120-1125 *)
   ("WhereLifetime", [("extent", TExt, true); ("name", (TN "Lifetime"), true); ("bounds", (TList (TN "Lifetime")), true); ("whitespace", (TList (TN "Whitespace")), true)]);
   (* src/ast.rs:1136-1141 *)
   ("WhereType", [("extent", TExt, true); ("name", (TN "Type"), true); ("bounds", (TN "TraitBounds"), true); ("whitespace", (TList (TN "Whitespace")), true)]);
   (* src/ast.rs:1152-1156 *)
   ("TraitBounds", [("extent", TExt, true); ("types", (TList (TN "TraitBound")), true); ("whitespace", (TList (TN "Whitespace")), true)]);
   (* src/ast.rs:1175-1179 *)
   ("TraitBoundLifetime", [("extent", TExt, true); ("lifetime", (TN "Lifetime"), true); ("whitespace", (TList (TN "Whitespace")), true)]);
   (* src/ast.rs:1191-1195 *)
   ("TraitBoundNormal", [("extent", TExt, true); ("typ", (TN "TraitBoundType"), true); ("whitespace", (TList (TN "Whitespace")), true)]);
   (* src/ast.rs:1206-1210 *)
   ("TraitBoundRelaxed", [("extent", TExt, true); ("typ", (TN "TraitBoundType"), true); ("whitespace", (TList (TN "Whitespace")), true)]);
   (* src/ast.rs:1230-1235 *)
   ("Block", [("extent", TExt, true); ("statements", (TList (TN "Statement")), true); ("expression", (TOpt (TN "Attributed<Expression>")), true); ("whitespace", (TList (TN "Whitespace")), true)]);
   (* src/ast.rs:1246-1250 *)
   ("UnsafeBlock", [("extent", TExt, true); ("body", (TN "Block"), true); ("whitespace", (TList (TN "Whitespace")), true)]);
   (* src/ast.rs:1261-1266 *)
   ("AsyncBlock", [("extent", TExt, true); ("body", (TN "Block"), true); ("is_move", (TOpt TExt), true); ("whitespace", (TList (TN "Whitespace")), true)]);
   (* src/ast.rs:1277-1281 *)
   ("Parenthetical", [("extent", TExt, true); ("expression", (TN "Attributed<Expression>"), true); ("whitespace", (TList (TN "Whitespace")), true)]);
   (* src/ast.rs:1298-1303, 1342 (the hand-written Visit, 1315-1339, skips the whitespace) *)
   ("Attributed<EnumVariant>", [("extent", TExt, true); ("attributes", (TList (TN "Attribute")), true); ("value", (TN "EnumVariant"), true); ("whitespace", (TList (TN "Whitespace")), false)]);
   (* src/ast.rs:1298-1303, 1343 (the hand-written Visit, 1315-1339, skips the whitespace) *)
   ("Attributed<Expression>", [("extent", TExt, true); ("attributes", (TList (TN "Attribute")), true); ("value", (TN "Expression"), true); ("whitespace", (TList (TN "Whitespace")), false)]);
   (* src/ast.rs:1298-1303, 1344 (the hand-written Visit, 1315-1339, skips the whitespace) *)
   ("Attributed<ExternBlockMember>", [("extent", TExt, true); ("attributes", (TList (TN "Attribute")), true); ("value", (TN "ExternBlockMember"), true); ("whitespace", (TList (TN "Whitespace")), false)]);
   (* src/ast.rs:1298-1303, 1345 (the hand-written Visit, 1315-1339, skips the whitespace) *)
   ("Attributed<GenericDeclarationConst>", [("extent", TExt, true); ("attributes", (TList (TN "Attribute")), true); ("value", (TN "GenericDeclarationConst"), true); ("whitespace", (TList (TN "Whitespace")), false)]);
   (* src/ast.rs:1298-1303, 1346 (the hand-written Visit, 1315-1339, skips the whitespace) *)
   ("Attributed<GenericDeclarationLifetime>", [("extent", TExt, true); ("attributes", (TList (TN "Attribute")), true); ("value", (TN "GenericDeclarationLifetime"), true); ("whitespace", (TList (TN "Whitespace")), false)]);
   (* src/ast.rs:1298-1303, 1347 (the hand-written Visit, 1315-1339, skips the whitespace) *)
   ("Attributed<GenericDeclarationType>", [("extent", TExt, true); ("attributes", (TList (TN "Attribute")), true); ("value", (TN "GenericDeclarationType"), true); ("whitespace", (TList (TN "Whitespace")), false)]);
   (* src/ast.rs:1298-1303, 1348 (the hand-written Visit, 1315-1339, skips the whitespace) *)
   ("Attributed<ImplMember>", [("extent", TExt, true); ("attributes", (TList (TN "Attribute")), true); ("value", (TN "ImplMember"), true); ("whitespace", (TList (TN "Whitespace")), false)]);
   (* src/ast.rs:1298-1303, 1349 (the hand-written Visit, 1315-1339, skips the whitespace) *)
   ("Attributed<Item>", [("extent", TExt, true); ("attributes", (TList (TN "Attribute")), true); ("value", (TN "Item"), true); ("whitespace", (TList (TN "Whitespace")), false)]);
   (* src/ast.rs:1298-1303, 1350 (the hand-written Visit, 1315-1339, skips the whitespace) *)
   ("Attributed<StructDefinitionFieldNamed>", [("extent", TExt, true); ("attributes", (TList (TN "Attribute")), true); ("value", (TN "StructDefinitionFieldNamed"), true); ("whitespace", (TList (TN "Whitespace")), false)]);
   (* src/ast.rs:1298-1303, 1351 (the hand-written Visit, 1315-1339, skips the whitespace) *)
   ("Attributed<StructDefinitionFieldUnnamed>", [("extent", TExt, true); ("attributes", (TList (TN "Attribute")), true); ("value", (TN "StructDefinitionFieldUnnamed"), true); ("whitespace", (TList (TN "Whitespace")), false)]);
   (* src/ast.rs:1298-1303, 1352 (the hand-written Visit, 1315-1339, skips the whitespace) *)
   ("Attributed<TraitMember>", [("extent", TExt, true); ("attributes", (TList (TN "Attribute")), true); ("value", (TN "TraitMember"), true); ("whitespace", (TList (TN "Whitespace")), false)]);
   (* src/ast.rs:1436-1442 *)
   ("MacroCall", [("extent", TExt, true); ("name", (TN "PathedIdent"), true); ("arg", (TOpt (TN "Ident")), true); ("args", (TN "MacroCallArgs"), true); ("whitespace", (TList (TN "Whitespace")), true)]);
   (* src/ast.rs:1460-1466 *)
   ("Let", [("extent", TExt, true); ("pattern", (TN "Pattern"), true); ("typ", (TOpt (TN "Type")), true); ("value", (TOpt (TN "Attributed<Expression>")), true); ("whitespace", (TList (TN "Whitespace")), true)]);
   (* src/ast.rs:1477-1481 *)
   ("Tuple", [("extent", TExt, true); ("members", (TList (TN "Attributed<Expression>")), true); ("whitespace", (TList (TN "Whitespace")), true)]);
   (* src/ast.rs:1492-1496 *)
   ("TryOperator", [("extent", TExt, true); ("target", (TN "Attributed<Expression>"), true); ("whitespace", (TList (TN "Whitespace")), true)]);
   (* src/ast.rs:1507-1512 *)
   ("FieldAccess", [("extent", TExt, true); ("target", (TN "Attributed<Expression>"), true); ("field", (TN "FieldName"), true); ("whitespace", (TList (TN "Whitespace")), true)]);
   (* src/ast.rs:1529-1534 *)
   ("Number", [("extent", TExt, true); ("is_negative", (TOpt TExt), true); ("value", (TN "NumberValue"), true); ("whitespace", (TList (TN "Whitespace")), true)]);
   (* src/ast.rs:1553-1559 *)
   ("NumberBinary", [("extent", TExt, true); ("decimal", TExt, true); ("fraction", (TOpt TExt), true); ("exponent", (TOpt TExt), true); ("suffix", (TOpt TExt), true)]);
   (* src/ast.rs:1570-1576 *)
   ("NumberDecimal", [("extent", TExt, true); ("decimal", TExt, true); ("fraction", (TOpt TExt), true); ("exponent", (TOpt TExt), true); ("suffix", (TOpt TExt), true)]);
   (* src/ast.rs:1587-1593 *)
   ("NumberHexadecimal", [("extent", TExt, true); ("decimal", TExt, true); ("fraction", (TOpt TExt), true); ("exponent", (TOpt TExt), true); ("suffix", (TOpt TExt), true)]);
   (* src/ast.rs:1604-1610 *)
   ("NumberOctal", [("extent", TExt, true); ("decimal", TExt, true); ("fraction", (TOpt TExt), true); ("exponent", (TOpt TExt), true); ("suffix", (TOpt TExt), true)]);
   (* src/ast.rs:1622-1627 *)
   ("Value", [("extent", TExt, true); ("name", (TN "PathedIdent"), true); ("literal", (TOpt (TN "StructLiteral")), true); ("whitespace", (TList (TN "Whitespace")), true)]);
   (* src/ast.rs:1638-1643 *)
   ("StructLiteral", [("extent", TExt, true); ("fields", (TList (TN "StructLiteralField")), true); ("splat", (TOpt (TN "Attributed<Expression>")), true); ("whitespace", (TList (TN "Whitespace")), true)]);
   (* src/ast.rs:1654-1659 *)
   ("StructLiteralField", [("extent", TExt, true); ("name", (TN "Ident"), true); ("value", (TN "Attributed<Expression>"), true); ("whitespace", (TList (TN "Whitespace")), true)]);
   (* src/ast.rs:1670-1675 *)
   ("Call", [("extent", TExt, true); ("target", (TN "Attributed<Expression>"), true); ("args", (TList (TN "Attributed<Expression>")), true); ("whitespace", (TList (TN "Whitespace")), true)]);
   (* src/ast.rs:1686-1693 *)
   ("ForLoop", [("extent", TExt, true); ("label", (TOpt (TN "Lifetime")), true); ("pattern", (TN "Pattern"), true); ("iter", (TN "Attributed<Expression>"), true); ("body", (TN "Block"), true); ("whitespace", (TList (TN "Whitespace")), true)]);
   (* src/ast.rs:1704-1709 *)
   ("Loop", [("extent", TExt, true); ("label", (TOpt (TN "Lifetime")), true); ("body", (TN "Block"), true); ("whitespace", (TList (TN "Whitespace")), true)]);
   (* src/ast.rs:1720-1726 *)
   ("IfLet", [("extent", TExt, true); ("pattern", (TN "Pattern"), true); ("value", (TN "Attributed<Expression>"), true); ("body", (TN "Block"), true); ("whitespace", (TList (TN "Whitespace")), true)]);
   (* src/ast.rs:1737-1743 *)
   ("While", [("extent", TExt, true); ("label", (TOpt (TN "Lifetime")), true); ("value", (TN "Attributed<Expression>"), true); ("body", (TN "Block"), true); ("whitespace", (TList (TN "Whitespace")), true)]);
   (* src/ast.rs:1754-1761 *)
   ("WhileLet", [("extent", TExt, true); ("label", (TOpt (TN "Lifetime")), true); ("pattern", (TN "Pattern"), true); ("value", (TN "Attributed<Expression>"), true); ("body", (TN "Block"), true); ("whitespace", (TList (TN "Whitespace")), true)]);
   (* src/ast.rs:1773-1779 *)
   ("Unary", [("extent", TExt, true); ("op", (TN "UnaryOp"), false); ("value", (TN "Attributed<Expression>"), true); ("whitespace", (TList (TN "Whitespace")), true)]);
   (* src/ast.rs:1796-1803 *)
   ("Binary", [("extent", TExt, true); ("op", (TN "BinaryOp"), false); ("lhs", (TN "Attributed<Expression>"), true); ("rhs", (TN "Attributed<Expression>"), true); ("whitespace", (TList (TN "Whitespace")), true)]);
   (* src/ast.rs:1847-1854 *)
   ("If", [("extent", TExt, true); ("condition", (TN "Attributed<Expression>"), true); ("body", (TN "Block"), true); ("more", (TList (TN "If")), true); ("else_body", (TOpt (TN "Block")), true); ("whitespace", (TList (TN "Whitespace")), true)]);
   (* src/ast.rs:1865-1870 *)
   ("Match", [("extent", TExt, true); ("head", (TN "Attributed<Expression>"), true); ("arms", (TList (TN "MatchArm")), true); ("whitespace", (TList (TN "Whitespace")), true)]);
   (* src/ast.rs:1881-1888 *)
   ("MatchArm", [("extent", TExt, true); ("attributes", (TList (TN "Attribute")), true); ("pattern", (TList (TN "Pattern")), true); ("guard", (TOpt (TN "Attributed<Expression>")), true); ("hand", (TN "MatchHand"), true); ("whitespace", (TList (TN "Whitespace")), true)]);
   (* src/ast.rs:1906-1911 *)
   ("Range", [("extent", TExt, true); ("lhs", (TOpt (TN "Attributed<Expression>")), true); ("rhs", (TOpt (TN "Attributed<Expression>")), true); ("whitespace", (TList (TN "Whitespace")), true)]);
   (* src/ast.rs:1922-1929 *)
   ("RangeInclusive", [("extent", TExt, true); ("lhs", (TOpt (TN "Attributed<Expression>")), true); ("operator", (TN "RangeInclusiveOperator"), false); ("rhs", (TOpt (TN "Attributed<Expression>")), true); ("whitespace", (TList (TN "Whitespace")), true)]);
   (* src/ast.rs:1952-1956 *)
   ("ArrayExplicit", [("extent", TExt, true); ("values", (TList (TN "Attributed<Expression>")), true); ("whitespace", (TList (TN "Whitespace")), true)]);
   (* src/ast.rs:1967-1972 *)
   ("ArrayRepeated", [("extent", TExt, true); ("value", (TN "Attributed<Expression>"), true); ("count", (TN "Attributed<Expression>"), true); ("whitespace", (TList (TN "Whitespace")), true)]);
   (* src/ast.rs:1984-1988 *)
   ("ExpressionBox", [("extent", TExt, true); ("target", (TN "Attributed<Expression>"), true); ("whitespace", (TList (TN "Whitespace")), true)]);
   (* src/ast.rs:1999-2004 *)
   ("AsType", [("extent", TExt, true); ("target", (TN "Attributed<Expression>"), true); ("typ", (TN "Type"), true); ("whitespace", (TList (TN "Whitespace")), true)]);
   (* src/ast.rs:2015-2020 *)
   ("Ascription", [("extent", TExt, true); ("target", (TN "Attributed<Expression>"), true); ("typ", (TN "Type"), true); ("whitespace", (TList (TN "Whitespace")), true)]);
   (* src/ast.rs:2031-2034 *)
   ("Character", [("extent", TExt, true); ("value", TExt, true)]);
   (* src/ast.rs:2045-2048 *)
   ("String", [("extent", TExt, true); ("value", TExt, true)]);
   (* src/ast.rs:2059-2062 *)
   ("Byte", [("extent", TExt, true); ("value", (TN "Character"), true)]);
   (* src/ast.rs:2073-2076 *)
   ("ByteString", [("extent", TExt, true); ("value", (TN "String"), true)]);
   (* src/ast.rs:2088-2093 *)
   ("Slice", [("extent", TExt, true); ("target", (TN "Attributed<Expression>"), true); ("index", (TN "Attributed<Expression>"), true); ("whitespace", (TList (TN "Whitespace")), true)]);
   (* src/ast.rs:2104-2112 *)
   ("Closure", [("extent", TExt, true); ("is_async", (TOpt TExt), true); ("is_move", (TOpt TExt), true); ("args", (TList (TN "ClosureArg")), true); ("return_type", (TOpt (TN "Type")), true); ("body", (TN "Attributed<Expression>"), true); ("whitespace", (TList (TN "Whitespace")), true)]);
   (* src/ast.rs:2123-2128 *)
   ("ClosureArg", [("extent", TExt, true); ("name", (TN "Pattern"), true); ("typ", (TOpt (TN "Type")), true); ("whitespace", (TList (TN "Whitespace")), true)]);
   (* src/ast.rs:2139-2144 *)
   ("Reference", [("extent", TExt, true); ("is_mutable", (TOpt TExt), true); ("target", (TN "Attributed<Expression>"), true); ("whitespace", (TList (TN "Whitespace")), true)]);
   (* src/ast.rs:2155-2159 *)
   ("Dereference", [("extent", TExt, true); ("target", (TN "Attributed<Expression>"), true); ("whitespace", (TList (TN "Whitespace")), true)]);
   (* src/ast.rs:2170-2176 *)
   ("Disambiguation", [("extent", TExt, true); ("from_type", (TN "Type"), true); ("to_type", (TOpt (TN "TypeNamed")), true); ("components", (TList (TN "PathComponent")), true); ("whitespace", (TList (TN "Whitespace")), true)]);
   (* src/ast.rs:2187-2191 *)
   ("Return", [("extent", TExt, true); ("value", (TOpt (TN "Attributed<Expression>")), true); ("whitespace", (TList (TN "Whitespace")), true)]);
   (* src/ast.rs:2202-2206 *)
   ("Continue", [("extent", TExt, true); ("label", (TOpt (TN "Lifetime")), true); ("whitespace", (TList (TN "Whitespace")), true)]);
   (* src/ast.rs:2217-2222 *)
   ("Break", [("extent", TExt, true); ("label", (TOpt (TN "Lifetime")), true); ("value", (TOpt (TN "Attributed<Expression>")), true); ("whitespace", (TList (TN "Whitespace")), true)]);
   (* src/ast.rs:2233-2238 *)
   ("Pattern", [("extent", TExt, true); ("name", (TOpt (TN "PatternName")), true); ("kind", (TN "PatternKind"), true); ("whitespace", (TList (TN "Whitespace")), true)]);
   (* src/ast.rs:2250-2256 *)
   ("PatternName", [("extent", TExt, true); ("is_ref", (TOpt TExt), true); ("is_mut", (TOpt TExt), true); ("name", (TN "Ident"), true); ("whitespace", (TList (TN "Whitespace")), true)]);
   (* src/ast.rs:2285-2292 *)
   ("PatternIdent", [("extent", TExt, true); ("is_ref", (TOpt TExt), true); ("is_mut", (TOpt TExt), true); ("ident", (TN "PathedIdent"), true); ("tuple", (TOpt (TN "PatternTuple")), true); ("whitespace", (TList (TN "Whitespace")), true)]);
   (* src/ast.rs:2303-2310 *)
   ("PatternStruct", [("extent", TExt, true); ("name", (TN "PathedIdent"), true); ("fields", (TList (TN "PatternStructField")), true); ("wildcard", TBool, false); ("whitespace", (TList (TN "Whitespace")), true)]);
   (* src/ast.rs:2327-2332 *)
   ("PatternStructFieldLong", [("extent", TExt, true); ("name", (TN "Ident"), true); ("pattern", (TN "Pattern"), true); ("whitespace", (TList (TN "Whitespace")), true)]);
   (* src/ast.rs:2343-2347 *)
   ("PatternStructFieldShort", [("extent", TExt, true); ("ident", (TN "PatternIdent"), true); ("whitespace", (TList (TN "Whitespace")), true)]);
   (* src/ast.rs:2358-2362 *)
   ("PatternTuple", [("extent", TExt, true); ("members", (TList (TN "PatternTupleMember")), true); ("whitespace", (TList (TN "Whitespace")), true)]);
   (* src/ast.rs:2379-2383 *)
   ("PatternSlice", [("extent", TExt, true); ("members", (TList (TN "PatternSliceMember")), true); ("whitespace", (TList (TN "Whitespace")), true)]);
   (* src/ast.rs:2401-2407 *)
   ("PatternSliceSubslice", [("extent", TExt, true); ("is_ref", (TOpt TExt), true); ("is_mut", (TOpt TExt), true); ("name", (TN "Ident"), true); ("whitespace", (TList (TN "Whitespace")), true)]);
   (* src/ast.rs:2418-2421 *)
   ("PatternByte", [("extent", TExt, true); ("value", (TN "Byte"), true)]);
   (* src/ast.rs:2432-2435 *)
   ("PatternCharacter", [("extent", TExt, true); ("value", (TN "Character"), true)]);
   (* src/ast.rs:2446-2449 *)
   ("PatternByteString", [("extent", TExt, true); ("value", (TN "ByteString"), true)]);
   (* src/ast.rs:2460-2463 *)
   ("PatternString", [("extent", TExt, true); ("value", (TN "String"), true)]);
   (* src/ast.rs:2473-2478 *)
   ("PatternNumber", [("extent", TExt, true); ("is_negative", (TOpt TExt), true); ("value", (TN "Number"), true); ("whitespace", (TList (TN "Whitespace")), true)]);
   (* src/ast.rs:2489-2493 *)
   ("PatternMacroCall", [("extent", TExt, true); ("value", (TN "MacroCall"), true); ("whitespace", (TList (TN "Whitespace")), true)]);
   (* src/ast.rs:2504-2509 *)
   ("PatternRangeExclusive", [("extent", TExt, true); ("start", (TN "PatternRangeComponent"), true); ("end", (TN "PatternRangeComponent"), true); ("whitespace", (TList (TN "Whitespace")), true)]);
   (* src/ast.rs:2520-2527 *)
   ("PatternRangeInclusive", [("extent", TExt, true); ("start", (TN "PatternRangeComponent"), true); ("operator", (TN "RangeInclusiveOperator"), false); ("end", (TN "PatternRangeComponent"), true); ("whitespace", (TList (TN "Whitespace")), true)]);
   (* src/ast.rs:2546-2551 *)
   ("PatternReference", [("extent", TExt, true); ("is_mut", (TOpt TExt), true); ("pattern", (TN "Pattern"), true); ("whitespace", (TList (TN "Whitespace")), true)]);
   (* src/ast.rs:2562-2566 *)
   ("PatternBox", [("extent", TExt, true); ("pattern", (TN "Pattern"), true); ("whitespace", (TList (TN "Whitespace")), true)]);
   (* src/ast.rs:2576-2587 *)
   ("Trait", [("extent", TExt, true); ("visibility", (TOpt (TN "Visibility")), true); ("is_unsafe", (TOpt TExt), true); ("is_auto", (TOpt TExt), true); ("name", (TN "Ident"), true); ("generics", (TOpt (TN "GenericDeclarations")), true); ("bounds", (TOpt (TN "TraitBounds")), true); ("wheres", (TList (TN "Where")), true); ("members", (TList (TN "Attributed<TraitMember>")), true); ("whitespace", (TList (TN "Whitespace")), true)]);
   (* src/ast.rs:2606-2611 *)
   ("TraitMemberFunction", [("extent", TExt, true); ("header", (TN "TraitImplFunctionHeader"), true); ("body", (TOpt (TN "Block")), true); ("whitespace", (TList (TN "Whitespace")), true)]);
   (* src/ast.rs:2622-2628 *)
   ("TraitMemberType", [("extent", TExt, true); ("name", (TN "Ident"), true); ("bounds", (TOpt (TN "TraitBounds")), true); ("default", (TOpt (TN "Type")), true); ("whitespace", (TList (TN "Whitespace")), true)]);
   (* src/ast.rs:2639-2645 *)
   ("TraitMemberConst", [("extent", TExt, true); ("name", (TN "Ident"), true); ("typ", (TN "Type"), true); ("value", (TOpt (TN "Attributed<Expression>")), true); ("whitespace", (TList (TN "Whitespace")), true)]);
   (* src/ast.rs:2655-2663 *)
   ("Impl", [("extent", TExt, true); ("is_unsafe", (TOpt TExt), true); ("generics", (TOpt (TN "GenericDeclarations")), true); ("kind", (TN "ImplKind"), true); ("wheres", (TList (TN "Where")), true); ("body", (TList (TN "Attributed<ImplMember>")), true); ("whitespace", (TList (TN "Whitespace")), true)]);
   (* src/ast.rs:2680-2686 *)
   ("ImplOfTrait", [("extent", TExt, true); ("is_negative", (TOpt TExt), true); ("trait_name", (TN "Type"), true); ("type_name", (TN "ImplOfTraitType"), true); ("whitespace", (TList (TN "Whitespace")), true)]);
   (* src/ast.rs:2697-2701 *)
   ("ImplOfInherent", [("extent", TExt, true); ("type_name", (TN "Type"), true); ("whitespace", (TList (TN "Whitespace")), true)]);
   (* src/ast.rs:2726-2731 *)
   ("ImplFunction", [("extent", TExt, true); ("header", (TN "FunctionHeader"), true); ("body", (TN "Block"), true); ("whitespace", (TList (TN "Whitespace")), true)]);
   (* src/ast.rs:2742-2747 *)
   ("ImplType", [("extent", TExt, true); ("name", (TN "Ident"), true); ("typ", (TN "Type"), true); ("whitespace", (TList (TN "Whitespace")), true)]);
   (* src/ast.rs:2758-2765 *)
   ("ImplConst", [("extent", TExt, true); ("visibility", (TOpt (TN "Visibility")), true); ("name", (TN "Ident"), true); ("typ", (TN "Type"), true); ("value", (TN "Attributed<Expression>"), true); ("whitespace", (TList (TN "Whitespace")), true)]);
   (* src/ast.rs:2775-2781 *)
   ("Crate", [("extent", TExt, true); ("visibility", (TOpt (TN "Visibility")), true); ("name", (TN "Ident"), true); ("rename", (TOpt (TN "Ident")), true); ("whitespace", (TList (TN "Whitespace")), true)]);
   (* src/ast.rs:2791-2796 *)
   ("ExternBlock", [("extent", TExt, true); ("abi", (TOpt (TN "String")), true); ("members", (TList (TN "Attributed<ExternBlockMember>")), true); ("whitespace", (TList (TN "Whitespace")), true)]);
   (* src/ast.rs:2814-2821 *)
   ("ExternBlockMemberStatic", [("extent", TExt, true); ("visibility", (TOpt (TN "Visibility")), true); ("is_mut", (TOpt TExt), true); ("name", (TN "Ident"), true); ("typ", (TN "Type"), true); ("whitespace", (TList (TN "Whitespace")), true)]);
   (* src/ast.rs:2832-2837 *)
   ("ExternBlockMemberType", [("extent", TExt, true); ("visibility", (TOpt (TN "Visibility")), true); ("name", (TN "Ident"), true); ("whitespace", (TList (TN "Whitespace")), true)]);
   (* src/ast.rs:2848-2857 *)
   ("ExternBlockMemberFunction", [("extent", TExt, true); ("visibility", (TOpt (TN "Visibility")), true); ("name", (TN "Ident"), true); ("generics", (TOpt (TN "GenericDeclarations")), true); ("arguments", (TList (TN "ExternBlockMemberFunctionArgument")), true); ("return_type", (TOpt (TN "Type")), true); ("wheres", (TList (TN "Where")), true); ("whitespace", (TList (TN "Whitespace")), true)]);
   (* src/ast.rs:2874-2879 *)
   ("ExternBlockMemberFunctionArgumentNamed", [("extent", TExt, true); ("name", (TN "Pattern"), true); ("typ", (TN "Type"), true); ("whitespace", (TList (TN "Whitespace")), true)]);
   (* src/ast.rs:2890-2892 *)
   ("ExternBlockMemberFunctionArgumentVariadic", [("extent", TExt, true)]);
   (* src/ast.rs:2902-2910 *)
   ("TypeAlias", [("extent", TExt, true); ("visibility", (TOpt (TN "Visibility")), true); ("name", (TN "Ident"), true); ("generics", (TOpt (TN "GenericDeclarations")), true); ("wheres", (TList (TN "Where")), true); ("defn", (TN "Type"), true); ("whitespace", (TList (TN "Whitespace")), true)]);
   (* src/ast.rs:2920-2926 *)
   ("Module", [("extent", TExt, true); ("visibility", (TOpt (TN "Visibility")), true); ("name", (TN "Ident"), true); ("body", (TOpt (TList (TN "Attributed<Item>"))), true); ("whitespace", (TList (TN "Whitespace")), true)]);
   (* src/ast.rs:2943-2948 *)
   ("VisibilityPublic", [("extent", TExt, true); ("qualifier", (TOpt (TN "VisibilityPublicQualifier")), false); ("whitespace", (TList (TN "Whitespace")), true)])].

Definition enums : list (string * list (string * option ty)) :=
  [
   (* src/ast.rs:20-36 *)
   ("Item", [("AttributeContaining", Some (TN "AttributeContaining")); ("Const", Some (TN "Const")); ("Enum", Some (TN "Enum")); ("ExternCrate", Some (TN "Crate")); ("ExternBlock", Some (TN "ExternBlock")); ("Function", Some (TN "Function")); ("Impl", Some (TN "Impl")); ("MacroCall", Some (TN "MacroCall")); ("Module", Some (TN "Module")); ("Static", Some (TN "Static")); ("Struct", Some (TN "Struct")); ("Trait", Some (TN "Trait")); ("TypeAlias", Some (TN "TypeAlias")); ("Use", Some (TN "Use")); ("Union", Some (TN "Union"))]);
   (* src/ast.rs:40-44 *)
   ("Attribute", [("DocCommentLine", Some TExt); ("DocCommentBlock", Some TExt); ("Literal", Some (TN "AttributeLiteral"))]);
   (* src/ast.rs:62-66 *)
   ("AttributeContaining", [("DocCommentLine", Some TExt); ("DocCommentBlock", Some TExt); ("Literal", Some (TN "AttributeContainingLiteral"))]);
   (* src/ast.rs:96-99 *)
   ("Whitespace", [("Comment", Some (TN "Comment")); ("Whitespace", Some TExt)]);
   (* src/ast.rs:102-105 *)
   ("Comment", [("Line", Some TExt); ("Block", Some TExt)]);
   (* src/ast.rs:139-143 *)
   ("UseTail", [("Ident", Some (TN "UseTailIdent")); ("Glob", Some (TN "UseTailGlob")); ("Multi", Some (TN "UseTailMulti"))]);
   (* src/ast.rs:358-371 *)
   ("TypeKind", [("Array", Some (TN "TypeArray")); ("Disambiguation", Some (TN "TypeDisambiguation")); ("Function", Some (TN "TypeFunction")); ("HigherRankedTraitBounds", Some (TN "TypeHigherRankedTraitBounds")); ("DynTrait", Some (TN "TypeDynTrait")); ("ImplTrait", Some (TN "TypeImplTrait")); ("Named", Some (TN "TypeNamed")); ("Pointer", Some (TN "TypePointer")); ("Reference", Some (TN "TypeReference")); ("Slice", Some (TN "TypeSlice")); ("Tuple", Some (TN "TypeTuple")); ("Uninhabited", Some TExt)]);
   (* src/ast.rs:424-427 (not Visit) *)
   ("TypePointerKind", [("Const", None); ("Mutable", None)]);
   (* src/ast.rs:462-466 *)
   ("TypeHigherRankedTraitBoundsChild", [("Named", Some (TN "TypeNamed")); ("Function", Some (TN "TypeFunction")); ("Reference", Some (TN "TypeReference"))]);
   (* src/ast.rs:499-502 *)
   ("TypeAdditional", [("Named", Some (TN "TypeNamed")); ("Lifetime", Some (TN "Lifetime"))]);
   (* src/ast.rs:583-586 *)
   ("TypeGenerics", [("Function", Some (TN "TypeGenericsFunction")); ("Angle", Some (TN "TypeGenericsAngle"))]);
   (* src/ast.rs:621-625 *)
   ("TypeGenericsAngleMember", [("Lifetime", Some (TN "Lifetime")); ("Type", Some (TN "Type")); ("AssociatedType", Some (TN "AssociatedType"))]);
   (* src/ast.rs:645-648 *)
   ("AssociatedTypeValue", [("Equal", Some (TN "AssociatedTypeValueEqual")); ("Bound", Some (TN "AssociatedTypeValueBound"))]);
   (* src/ast.rs:698-701 *)
   ("TypeFunctionArgument", [("Named", Some (TN "TypeFunctionArgumentNamed")); ("Variadic", Some TExt)]);
   (* src/ast.rs:869-873 *)
   ("StructDefinitionBody", [("Brace", Some (TN "StructDefinitionBodyBrace")); ("Tuple", Some (TN "StructDefinitionBodyTuple")); ("Empty", Some TExt)]);
   (* src/ast.rs:991-995 *)
   ("EnumVariantBody", [("Tuple", Some (TList (TN "Attributed<StructDefinitionFieldUnnamed>"))); ("Struct", Some (TN "StructDefinitionBodyBrace")); ("Unit", Some (TOpt (TN "Attributed<Expression>")))]);
   (* src/ast.rs:998-1001 *)
   ("Argument", [("SelfArgument", Some (TN "SelfArgument")); ("Named", Some (TN "NamedArgument"))]);
   (* src/ast.rs:1004-1007 *)
   ("SelfArgument", [("Longhand", Some (TN "SelfArgumentLonghand")); ("Shorthand", Some (TN "SelfArgumentShorthand"))]);
   (* src/ast.rs:1043-1046 *)
   ("SelfArgumentShorthandQualifier", [("Reference", Some (TN "TypeReferenceKind")); ("Mut", Some TExt)]);
   (* src/ast.rs:1065-1068 *)
   ("TraitImplArgument", [("SelfArgument", Some (TN "SelfArgument")); ("Named", Some (TN "TraitImplArgumentNamed"))]);
   (* src/ast.rs:1106-1109 *)
   ("WhereKind", [("Lifetime", Some (TN "WhereLifetime")); ("Type", Some (TN "WhereType"))]);
   (* src/ast.rs:1159-1163 *)
   ("TraitBound", [("Lifetime", Some (TN "TraitBoundLifetime")); ("Normal", Some (TN "TraitBoundNormal")); ("Relaxed", Some (TN "TraitBoundRelaxed"))]);
   (* src/ast.rs:1213-1218 *)
   ("TraitBoundType", [("Named", Some (TN "TypeNamed")); ("HigherRankedTraitBounds", Some (TN "TypeHigherRankedTraitBounds"))]);
   (* src/ast.rs:1284-1288 *)
   ("Statement", [("Expression", Some (TN "Attributed<Expression>")); ("Item", Some (TN "Attributed<Item>")); ("Empty", Some TExt)]);
   (* src/ast.rs:1367-1407 *)
   ("Expression", [("Array", Some (TN "Array")); ("AsType", Some (TN "AsType")); ("Ascription", Some (TN "Ascription")); ("AsyncBlock", Some (TN "AsyncBlock")); ("Binary", Some (TN "Binary")); ("Block", Some (TN "Block")); ("Box", Some (TN "ExpressionBox")); ("Break", Some (TN "Break")); ("Byte", Some (TN "Byte")); ("ByteString", Some (TN "ByteString")); ("Call", Some (TN "Call")); ("Character", Some (TN "Character")); ("Closure", Some (TN "Closure")); ("Continue", Some (TN "Continue")); ("Dereference", Some (TN "Dereference")); ("Disambiguation", Some (TN "Disambiguation")); ("FieldAccess", Some (TN "FieldAccess")); ("ForLoop", Some (TN "ForLoop")); ("If", Some (TN "If")); ("IfLet", Some (TN "IfLet")); ("Let", Some (TN "Let")); ("Loop", Some (TN "Loop")); ("MacroCall", Some (TN "MacroCall")); ("Match", Some (TN "Match")); ("Number", Some (TN "Number")); ("Parenthetical", Some (TN "Parenthetical")); ("Range", Some (TN "Range")); ("RangeInclusive", Some (TN "RangeInclusive")); ("Reference", Some (TN "Reference")); ("Return", Some (TN "Return")); ("Slice", Some (TN "Slice")); ("String", Some (TN "String")); ("Tuple", Some (TN "Tuple")); ("TryOperator", Some (TN "TryOperator")); ("Unary", Some (TN "Unary")); ("UnsafeBlock", Some (TN "UnsafeBlock")); ("Value", Some (TN "Value")); ("While", Some (TN "While")); ("WhileLet", Some (TN "WhileLet"))]);
   (* src/ast.rs:1445-1449 *)
   ("MacroCallArgs", [("Paren", Some TExt); ("Curly", Some TExt); ("Square", Some TExt)]);
   (* src/ast.rs:1515-1518 *)
   ("FieldName", [("Path", Some (TN "PathComponent")); ("Number", Some TExt)]);
   (* src/ast.rs:1537-1542 *)
   ("NumberValue", [("Binary", Some (TN "NumberBinary")); ("Decimal", Some (TN "NumberDecimal")); ("Hexadecimal", Some (TN "NumberHexadecimal")); ("Octal", Some (TN "NumberOctal"))]);
   (* src/ast.rs:1782-1785 (not Visit) *)
   ("UnaryOp", [("Negate", None); ("Not", None)]);
   (* src/ast.rs:1806-1836 (not Visit) *)
   ("BinaryOp", [("Add", None); ("AddAssign", None); ("Assign", None); ("BitwiseAnd", None); ("BitwiseAndAssign", None); ("BitwiseOr", None); ("BitwiseOrAssign", None); ("BitwiseXor", None); ("BitwiseXorAssign", None); ("BooleanAnd", None); ("BooleanOr", None); ("Div", None); ("DivAssign", None); ("Equal", None); ("GreaterThan", None); ("GreaterThanOrEqual", None); ("LessThan", None); ("LessThanOrEqual", None); ("Mod", None); ("ModAssign", None); ("Mul", None); ("MulAssign", None); ("NotEqual", None); ("ShiftLeft", None); ("ShiftLeftAssign", None); ("ShiftRight", None); ("ShiftRightAssign", None); ("Sub", None); ("SubAssign", None)]);
   (* src/ast.rs:1891-1894 *)
   ("MatchHand", [("Brace", Some (TN "Attributed<Expression>")); ("Expression", Some (TN "Attributed<Expression>"))]);
   (* src/ast.rs:1932-1935 (not Visit) *)
   ("RangeInclusiveOperator", [("Legacy", Some TExt); ("Recommended", Some TExt)]);
   (* src/ast.rs:1938-1941 *)
   ("Array", [("Explicit", Some (TN "ArrayExplicit")); ("Repeated", Some (TN "ArrayRepeated"))]);
   (* src/ast.rs:2259-2274 *)
   ("PatternKind", [("Box", Some (TN "PatternBox")); ("Byte", Some (TN "PatternByte")); ("ByteString", Some (TN "PatternByteString")); ("Character", Some (TN "PatternCharacter")); ("Ident", Some (TN "PatternIdent")); ("MacroCall", Some (TN "PatternMacroCall")); ("Number", Some (TN "PatternNumber")); ("RangeExclusive", Some (TN "PatternRangeExclusive")); ("RangeInclusive", Some (TN "PatternRangeInclusive")); ("Reference", Some (TN "PatternReference")); ("Slice", Some (TN "PatternSlice")); ("String", Some (TN "PatternString")); ("Struct", Some (TN "PatternStruct")); ("Tuple", Some (TN "PatternTuple"))]);
   (* src/ast.rs:2313-2316 *)
   ("PatternStructField", [("Long", Some (TN "PatternStructFieldLong")); ("Short", Some (TN "PatternStructFieldShort"))]);
   (* src/ast.rs:2365-2368 *)
   ("PatternTupleMember", [("Pattern", Some (TN "Pattern")); ("Wildcard", Some TExt)]);
   (* src/ast.rs:2386-2390 *)
   ("PatternSliceMember", [("Pattern", Some (TN "Pattern")); ("Subslice", Some (TN "PatternSliceSubslice")); ("Wildcard", Some TExt)]);
   (* src/ast.rs:2530-2535 *)
   ("PatternRangeComponent", [("Ident", Some (TN "PathedIdent")); ("Byte", Some (TN "Byte")); ("Character", Some (TN "Character")); ("Number", Some (TN "PatternNumber"))]);
   (* src/ast.rs:2590-2595 *)
   ("TraitMember", [("Const", Some (TN "TraitMemberConst")); ("Function", Some (TN "TraitMemberFunction")); ("Type", Some (TN "TraitMemberType")); ("MacroCall", Some (TN "MacroCall"))]);
   (* src/ast.rs:2666-2669 *)
   ("ImplKind", [("Trait", Some (TN "ImplOfTrait")); ("Inherent", Some (TN "ImplOfInherent"))]);
   (* src/ast.rs:2704-2707 *)
   ("ImplOfTraitType", [("Type", Some (TN "Type")); ("Wildcard", Some TExt)]);
   (* src/ast.rs:2710-2715 *)
   ("ImplMember", [("Const", Some (TN "ImplConst")); ("Function", Some (TN "ImplFunction")); ("Type", Some (TN "ImplType")); ("MacroCall", Some (TN "MacroCall"))]);
   (* src/ast.rs:2799-2803 *)
   ("ExternBlockMember", [("Function", Some (TN "ExternBlockMemberFunction")); ("Static", Some (TN "ExternBlockMemberStatic")); ("Type", Some (TN "ExternBlockMemberType"))]);
   (* src/ast.rs:2860-2863 *)
   ("ExternBlockMemberFunctionArgument", [("Named", Some (TN "ExternBlockMemberFunctionArgumentNamed")); ("Variadic", Some (TN "ExternBlockMemberFunctionArgumentVariadic"))]);
   (* src/ast.rs:2929-2932 *)
   ("Visibility", [("Public", Some (TN "VisibilityPublic")); ("Crate", Some TExt)]);
   (* src/ast.rs:2951-2955 (not Visit) *)
   ("VisibilityPublicQualifier", [("Crate", None); ("SelfIdent", None); ("Path", Some (TN "Path"))])].
