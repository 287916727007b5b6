# Regenerates /verif/properties.jsonl
import json
P=[]
def p(title, statement, quantifier, why, anchors):
    P.append(dict(id="C%02d"%(len(P)+1), title=title, statement=statement, quantifier=quantifier, why_tests_cant=why, anchors=anchors))
T="src/tokenizer.rs"; L="src/lib.rs"; M="src/parser/mod.rs"; PC="src/parser/combinators.rs"; E="src/parser/expression.rs"; A="src/ast.rs"; W="src/whitespace_apportioner.rs"; V="src/visit.rs"; D="fuzzy-pickles-derive/src/lib.rs"
p("Tokens tile the source text",
  "If tokenizing a text succeeds, the token extents are contiguous: the first starts at 0, each starts where its predecessor ended, every token except the final EndOfFile is non-empty, and the last one ends at the byte length of the text. Concatenating the text of the tokens gives back the source.",
  "every source text", "tests compare a handful of literal texts; losslessness is a claim about all texts",
  [T+":Tokens::next",T+":single_token",T+":split_point_at_non_zero_offset"])
p("EndOfFile exactly once, at the end",
  "Iterating Tokens over any text either yields an error or yields finitely many tokens, of which exactly the last is EndOfFile, located at (len,len), and then yields None forever. The iteration needs at most len+1 calls.",
  "every source text and every number of next() calls", "termination and the absence of a second EndOfFile cannot be observed by finitely many runs",
  [T+":Tokens::next"])
p("Token extents are valid string indices",
  "Every token extent (s,e), including the parts of a number token, satisfies s <= e <= len and both ends are UTF-8 character boundaries, so indexing the source with it never panics.",
  "every source text, every token", "depends on multi-byte characters in every position",
  [T+":Token::extent",L+":Index<Extent>",T+":number"])
p("The tokenizer never panics and reports usable error locations",
  "Calling next() on Tokens never triggers an assertion or slicing panic; when it yields an error, the location is a character boundary <= len, and the set of expected things is not empty.",
  "every source text, every call", "absence of panics over all texts is not testable by examples",
  [T+":Tokens::next",T+":ErrorDetail",T+":ex"])
p("A tokenizer error is permanent",
  "Once the iterator has yielded an error, every later call also yields an error (it never skips input and never ends), so a consumer that wants to stop must stop on the first error; the iterator on its own does not terminate.",
  "every source text that fails to tokenize and every later call", "infinite behaviour",
  [T+":Tokens::next"])
p("Identifiers and keywords are classified by spelling",
  "At a position where an identifier starts (and no literal prefix applies), the token is the longest identifier; it has the keyword kind if and only if its whole spelling is one of the 37 keyword spellings, otherwise it is Ident.",
  "every identifier spelling and every continuation of the text", "infinitely many spellings, including prefixes and extensions of keywords",
  [T+":keyword_or_ident",T+":ident_len"])
p("Raw identifiers are never keywords",
  "r# followed by an identifier always yields one Ident token covering the prefix and the name, even when the name is a keyword; r# not followed by an identifier, quote or further hash is a hard error, not two tokens.",
  "every identifier spelling and continuation", "infinitely many spellings",
  [T+":keyword_or_ident",T+":Error::recoverable"])
p("Symbols are matched longest first",
  "When the text at a position starts with punctuation (and not with a comment), the token is the longest entry of the symbol table that is a prefix of the remaining text.",
  "every remaining text", "alternative order bugs show only for particular overlaps and continuations",
  [T+":single_token"])
p("Whitespace tokens are maximal runs",
  "A Whitespace token covers exactly the maximal run of space, tab, CR, LF, U+200E, U+200F characters at its start; two Whitespace tokens are never adjacent.",
  "every source text", "quantifies over all runs and followers",
  [T+":whitespace"])
p("Comments: classification and extent",
  "A text starting with // or /* yields exactly one of the six comment kinds, determined by the characters after it; a line comment extends up to but not including the first newline (or to the end of text); a block comment extends through the first */ after its opener, or to the end of text.",
  "every source text", "all comment bodies",
  [T+":comment_or_doc_comment"])
p("Block comments nest",
  "A block comment that contains an inner /* */ pair extends to the matching outer */ and an unterminated block comment is an error (as in Rust).",
  "every nesting", "all nestings",
  [T+":comment_or_doc_comment"])
p("String literals end at the first unescaped quote",
  "A text starting with a double quote yields a String token ending right after the first quote not preceded by an active backslash escape, whatever follows; if there is none, tokenizing fails.",
  "every string body and continuation", "all bodies and escapes",
  [T+":string",T+":string_char"])
p("Raw strings end at the first matching terminator",
  "r, n hashes and a quote yield a StringRaw token that ends right after the first quote followed by n hashes; if there is none the text is not tokenized as a raw string.",
  "every n, body and continuation", "unbounded number of hashes and bodies",
  [T+":string_raw",T+":raw_string_tail"])
p("Character and byte literals versus lifetimes",
  "A quote, one character (or a complete escape) and a quote is a Character token; otherwise a quote followed by an identifier is a Lifetime token with the longest identifier.",
  "every character, identifier and continuation", "all characters, including multi-byte ones and quotes",
  [T+":character",T+":lifetime",T+":byte"])
p("Number tokens: structure",
  "Every Number token starts with a digit; integral, fractional, exponent and type suffix lie inside the token, in that order and disjoint; the radix is decided by the 0b/0x/0o prefix; integral has at least one digit or underscore; a period belongs to the number only if not followed by a second period or an identifier.",
  "every number token of every text", "all combinations of optional parts and followers",
  [T+":number",T+":number_value",T+":number_fractional",T+":number_digits"])
p("into_simple accepts exactly plain decimal digits",
  "Number::into_simple on a number token returns its extent exactly when the text of the token consists only of ASCII digits, otherwise None.",
  "every number token of every text", "all number spellings",
  [T+":Number::into_simple"])
p("Space-separated spellings tokenize back",
  "For every sequence of keywords, symbols, identifiers, lifetimes and decimal integers, writing their spellings each followed by a non-empty run of whitespace, and tokenizing gives exactly that sequence (with Whitespace tokens in between) and EndOfFile.",
  "every finite sequence of such tokens", "sequences of arbitrary length and all adjacent pairs",
  [T+":single_token",T+":Tokens::next"])
p("parse_rust_file is total",
  "For every text parse_rust_file returns Ok or Err after finitely many steps: none of its assertions, index operations, expect calls or subtractions can fail (no progress, points are backwards, cannot resume a split token, unassigned whitespace, shunting-yard leftovers, out-of-range token).",
  "every source text", "absence of panics and termination over all inputs",
  [L+":parse_rust_file",M+":State::ex",M+":token",E+":ShuntingYard::finish",M+":TokenPoint"])
p("Every extent in a returned file is ordered and in bounds",
  "Every Extent anywhere in the AST of an accepted text satisfies start <= end <= len(text).",
  "every accepted text and every node", "all programs",
  [M+":State::ex",A+":HasExtent"])
p("Every extent in a returned file can be used to index the text",
  "Every Extent in the AST of an accepted text has both ends on character boundaries, so indexing the text with a node never panics.",
  "every accepted text and every node", "depends on rare combinations of split tokens and multi-byte whitespace",
  [M+":State::ex",L+":Index<Extent>"])
p("Whitespace and comments are conserved",
  "After a successful parse, the multiset of Whitespace/Comment entries over all nodes of the file equals the list of whitespace and (non-doc) comment tokens of the text: nothing lost, nothing duplicated.",
  "every accepted text", "all programs and whitespace placements",
  [L+":extract_whitespace",W+":WhitespaceApportioner",L+":parse_rust_file"])
p("Whitespace is attached to the innermost node that collects whitespace",
  "Each whitespace entry is stored in a node whose extent contains the entry's start, and no node visited earlier in post-order that collects whitespace contains its start; entries contained in no such node are stored in the file; within a node entries are in source order.",
  "every accepted text, every entry", "all programs",
  [W+":divvy_up",W+":exit_file",V+":Visit"])
p("Apportioning changes only whitespace",
  "The file returned is the parsed tree with only the whitespace vectors filled in; no extents, fields or variants change.",
  "every accepted text", "all programs",
  [W+":WhitespaceApportioner",V+":VisitorMut"])
p("The AST has the documented shape and markers point at the right tokens",
  "Every node of a returned AST has exactly the fields of its type in ast.rs, and every leaf extent for a marker such as is_pub/is_mut/is_unsafe/name is the extent of a (possibly split) token of the kind the field names.",
  "every accepted text and every node", "all programs",
  [A,M,E])
p("Fields appear in source order",
  "Within a node everything in an earlier field ends before anything in a later field starts, and the same holds for successive elements of a vector and for the parts of a number. The exceptions are: where clauses of a tuple struct (after its body), the move of an async block (before the body), the value of a shorthand struct literal field (a copy of its name), and an attributed prefix operation (its own extent starts at the attributes).",
  "every accepted text and every node", "all programs",
  [M,E,A])
p("Child extents lie within their parent's extent",
  "The extent of every node is contained in the extent of its enclosing node.",
  "every accepted text and every node", "all programs",
  [M+":State::ex",A+":HasExtent"])
p("Items partition the token stream",
  "In an accepted text the items of the file are consecutive: the first begins at the first non-whitespace token, each next begins at the first token at or after the end of the previous one, and after the last only EndOfFile remains; every parsed item consumes at least one token.",
  "every accepted text", "all programs",
  [L+":parse_rust_file"])
p("No token is silently dropped",
  "Every non-whitespace token of an accepted text was consumed by some production of the grammar: acceptance never skips over tokens.",
  "every accepted text", "all programs; the offending inputs are malformed ones nobody writes into a test-suite",
  [PC+":zero_or_more_tailed_append",PC+":parse_tailed"])
p("Error location of a rejected file",
  "When parsing is rejected, the reported location is the start of a token of the text, it is the furthest token any alternative reached, and the set of expected things is not empty; rendering the error with the text does not panic.",
  "every rejected text", "all malformed programs",
  [L+":parse_rust_file",L+":HumanTextError::new",M+":ErrorDetail"])
p("Human-readable error: line and excerpt",
  "For every text and every character-boundary location, the reported line is one plus the number of newlines before it, and the excerpt printed is the line containing the location.",
  "every text and location", "all texts and locations",
  [L+":HumanTextError::new"])
p("Human-readable error: column",
  "The reported column and the caret position are computed the same way on every line: column = bytes between the start of the line and the location, plus a constant.",
  "every text and location", "all texts and locations",
  [L+":HumanTextError::new",T+":ErrorDetailText::fmt",M+":ErrorDetailText::fmt"])
p("Visitor events are well nested and complete",
  "Visiting a tree with a visitor that always continues produces, for every node, exactly one visit and one exit event, properly nested like parentheses, children between them in field order.",
  "every AST", "all trees and depths",
  [V+":Visit",D,A+":Attributed"])
p("Break prunes exactly the children",
  "If a visitor answers Break for a node, none of the events of its descendants happen, its own exit event does, and the rest of the traversal is unaffected.",
  "every AST and every visitor", "all trees and all stateful visitors",
  [V+":Control",D,A+":Attributed"])
p("Compound tokens split consistently",
  "When the parser takes only the first part of a compound token (<<, >>, >>=, >=, ||, &&), the parts taken are adjacent and together cover exactly the token; a partially consumed token can always be resumed.",
  "every token sequence and parse position", "all histories of partial consumption",
  [M+":split",M+":token",M+":TokenPoint"])
p("Nested generics close however the angle brackets are glued",
  "A type with generics nested to any depth parses to the same tree (same nesting) whether the closing angle brackets are written separated or glued into >> tokens.",
  "every nesting depth and every gluing", "unbounded depth",
  [M+":split",M+":typ_generic",M+":token"])
p("Infix chains associate to the left",
  "A chain of operands joined by infix operators parses to the left-nested tree over exactly those operands and operators in order.",
  "every chain of operators and operands", "unbounded chains",
  [E+":ShuntingYard",E+":expression_shunting_yard"])
p("Operators respect Rust precedence",
  "Multiplicative operators bind tighter than additive ones, unary operators bind tighter than infix but looser than method calls and field accesses, and so on, as in Rust.",
  "every expression", "all operator combinations",
  [E+":OperatorInfix::precedence",E+":should_pop"])
p("Macro arguments are balanced token runs",
  "The arguments of an accepted macro invocation are the tokens up to the closing delimiter that matches the opening one: inside, delimiters of that kind are balanced, and the closing one is the first that is not matched inside.",
  "every token run", "unbounded nesting",
  [PC+":parse_nested_until",M+":macro_call"])
p("Attributes and doc comments are kept in order",
  "The attributes and doc comments directly in front of an item are exactly the attributes list of that item, in source order.",
  "every number of attributes", "unbounded lists",
  [M+":attributed",M+":attribute"])
p("The struct-literal restriction is scoped",
  "Parsing any construct leaves the struct-literal restriction exactly as it found it, whether it succeeds or fails; inside parentheses, brackets and call arguments the restriction is lifted.",
  "every parser function, input and initial restriction", "every exit path of every function",
  [E+":set_ambiguity_level",M+":State"])
p("Trailing expression of a block",
  "A block's expression field is the final expression statement that is not followed by a semicolon; all preceding statements, in order, are in statements.",
  "every block", "all statement lists",
  [M+":block",PC+":zero_or_more_implicitly_tailed_append"])
p("Layout does not change the parse",
  "Two texts with the same sequence of non-whitespace, non-comment tokens (same kinds, same simple-number status) are both accepted or both rejected, with the same tree shape and the same reported token on error; only extents and whitespace differ.",
  "every pair of texts with the same significant tokens", "a relation between two runs over all texts",
  [M+":token",L+":extract_whitespace"])
p("Use declarations parse completely and exactly",
  "Every use declaration built from a path followed by a name, rename, wildcard or nested brace group (to any depth) is accepted and the tree returned has exactly that structure.",
  "every use tree", "unbounded nesting",
  [M+":p_use",M+":use_tail"])
p("Types parse completely and exactly",
  "Every type built from references, pointers, slices, arrays, tuples, never, and paths with generic arguments is accepted and the tree returned has exactly that structure.",
  "every type of that fragment", "unbounded nesting",
  [M+":typ"])
p("Parsing is monotone in the amount of recursion allowed",
  "The result of parsing is independent of how deep the recursion is allowed to go once it is deep enough, and a depth linear in the number of tokens is always enough (the recursion depth of the parser is bounded linearly).",
  "every source text", "stack depth over all inputs",
  [M,E,PC])
p("Files parse as written",
  "A text made of items that follow the grammar of the separate specification (modules, uses, structs, enums, unions, traits, impls, extern blocks, constants, functions with bodies, macros, with attributes, visibilities, generics, where clauses, types, patterns, statements, expressions) is accepted, and the AST has exactly the nodes, fields, names and order the specification gives the text.",
  "every sequence of items, nested to any depth, in every layout and gluing of tokens", "unbounded nesting of every construct in every other",
  [L+":parse_rust_file",M+":item",M+":typ",M+":pattern",E+":expression"])
p("Agreement with Rust outside that fragment",
  "Every text that Rust accepts is accepted and read as Rust reads it, and what Rust rejects as malformed is rejected, also outside the fragment of C46 (paths starting with crate in tuple structs, attributes of generic parameters, separators, nested tuple indices).",
  "every text", "the interesting texts are combinations nobody thought of",
  [L+":parse_rust_file",M+":struct_definition",M+":function_arglist",E+":expr_field_access"])
p("Nodes start and end at their tokens",
  "The extent of every syntax node starts with a token that its syntax starts with (if for an if expression, a visibility or fn or a qualifier for a function, ( for a tuple, ...) and, where the syntax has a fixed last token, ends with it (}, ), ], ;).",
  "every accepted text and every node", "all programs",
  [M+":State::ex",M,E,"src/ast.rs"])
p("Operators lie between their operands",
  "In every node for an operation (binary, unary, range, field access, call, index, cast, ascription, ?) the token that spells the operator recorded in the node lies in the text behind the whole left operand and before the whole right operand, inside the extent of the node.",
  "every accepted text and every operation in it", "all expressions",
  [E+":OperatorInfix",E+":OperatorPrefix",E+":OperatorPostfix",E+":expression"])
p("The stats program counts statements",
  "For an accepted file the stats program prints the number of statements in its syntax tree, however deeply they are nested.",
  "every accepted text", "all programs", ["stats/src/main.rs:Stats","src/visit.rs:Visitor","src/ast.rs:Statement"])
p("The programs handle files in order and report failures",
  "stats and dump handle the files in the order given; stats --keep-going gives each file its line or its complaint; otherwise the program stops at the first file that is not accepted, after what it printed for the ones before, and names it. No program ends in a panic of the library.",
  "every list of files", "all histories of files", ["stats/src/main.rs:main","dump/src/main.rs:main","tokenizer/src/main.rs:main"])
p("The tokenizer program shows the whole file",
  "The tokenizer program prints the tokens in order, numbered from 0, each with its text; the texts put together are the file.",
  "every text", "all texts", ["tokenizer/src/main.rs:main"])
p("Keywords and symbols lie between the parts they separate",
  "For every kind of syntax node the keywords and symbols of its construct (: and = of a constant, in of a for loop, => of a match arm, -> of a function, brackets around lists, ...) stand in the text behind the parts the syntax puts before them and in front of the parts it puts after them.",
  "every accepted text and every node", "all programs",
  [M,E,"src/ast.rs"])
p("Elements of lists are separated",
  "Between two neighbours of a list in the syntax tree (arguments of a call, fields, variants, members of a tuple, bounds, components of a path, alternatives of a match arm, ...) the text has the separator of that list; match arms and statements may do without it only behind an element that ends itself (items, block-like expressions, macros in braces, arms with a block). A receiver without a comma behind it and a lifetime without a comma before a type parameter are exceptions, proved to be accepted.",
  "every accepted text, every list and every pair of neighbours", "all programs",
  [PC+":zero_or_more_tailed_values",PC+":one_or_more_tailed_values",M,E])
p("Expectations can be trusted",
  "What a rejection lists as expected depends only on the tokens before the reported one; it never asks for the kind of token that is there; and any text with the same tokens before, and a token that is asked for in place of the reported one, is accepted or rejected at a later token. The list need not be complete (separators and the colon behind an argument's name are missing from it). The six tokens that the grammar may read in two halves are left out.",
  "every rejected text, every entry of its list of expectations and every continuation", "all texts and all repairs of them",
  [L+":parse_rust_file",M+":Error",M+":token","peresil:ParseMaster"])
p("Heads of control flow hold no bare struct literal",
  "In an accepted file the head of every if, while, for and match expression, the part in front of the opening brace, contains no struct literal, unless inside parentheses, brackets, the arguments of a call, an index, or the arms of a match.",
  "every accepted text and every if, while, for and match in it, however deeply nested", "all programs",
  [E+":expr_followed_by_block",E+":expr_match",E+":expr_value",E+":set_ambiguity_level",E+":expression_shunting_yard"])
p("Delimiters of an accepted file pair up",
  "In an accepted file every opening parenthesis, bracket and brace has its closing partner and they nest properly. The text of a macro invocation or attribute is balanced in the delimiters around it. In a file with neither ! nor #, there are as many closing as opening delimiters of each kind.",
  "every accepted text", "all programs, all depths of nesting",
  [L+":parse_rust_file",E+":expression",M+":block",M+":attribute_literal",M+":item_macro_call"])
p("if let and while let make no nodes of their own",
  "In an accepted file whose array types have lengths without parentheses, brackets or braces, no IfLet and no WhileLet node occurs, in spite of these names: an if let becomes an If node with a Let expression in its condition. (It is proved that if let need not make an IfLet node, and that the condition on lengths is needed.)",
  "every accepted text with such lengths", "all programs: that the later alternative of the parser never matches is a statement about all texts",
  [E+":expression_atom",E+":expr_if",E+":expr_if_let",E+":expr_while",E+":expr_while_let",E+":expr_let"])
p("Visitors that change the tree",
  "A traversal by a visitor that may change nodes shows each node to visit_*, goes through the visited fields of what visit_* left (unless it answered Break; Attributed wrappers are always gone through), and hands the result to exit_*; entries and exits nest. Whatever all the methods keep, the whole traversal keeps: fields that are not visited and everything no method touches stay as they are, and methods that keep the types of nodes keep the type of the tree. A visitor that changes nothing sees exactly what the reading traversal shows. The traversal ends if no visit_* method makes its node deeper (and need not otherwise). A parsed file is what such a traversal with the whitespace apportioner leaves of the parsed items.",
  "every tree, every visitor with every state and history", "all trees and all visitors, including those of users",
  ["src/visit.rs:VisitorMut","src/visit.rs:Visit::visit_mut","fuzzy-pickles-derive/src/lib.rs:impl_visit","fuzzy-pickles-derive/src/lib.rs:impl_visit_fields","src/ast.rs:Attributed","src/whitespace_apportioner.rs:WhitespaceApportioner"])
p("Methods of nodes tell their variants and extents",
  "For every token, every number and every value of an enum of the syntax tree exactly one is_* method answers true, the one named after its variant (different variants have methods of different names); as_* and into_* of that variant give what is in it, of the declared type, and those of other variants give None. Every node of a parsed file, of every type that has an extent, has exactly the extent stored in it, within the text; indexing the text with the node gives the part of the text with these offsets (in texts without U+200E/U+200F).",
  "every token, every enum, every variant, every value; every accepted text and every node of it", "all programs and all nodes; indexing panics if an extent is wrong",
  ["fuzzy-pickles-derive/src/lib.rs:camelcase_to_snake_case","fuzzy-pickles-derive/src/lib.rs:impl_decompose","fuzzy-pickles-derive/src/lib.rs:impl_has_extent","fuzzy-pickles-derive/src/lib.rs:impl_extent_index","src/ast.rs","src/tokenizer.rs:Token","src/tokenizer.rs:Number"])
p("What stands in front of an item does not matter",
  "If a text is accepted and one of its items starts at some offset, the text from that offset on is accepted on its own, and gives exactly that item and the later ones with the whitespace inside and between them, every position less by that offset. So the same item text, with the same text behind it, gives the same tree whatever items stand in front of it.",
  "every accepted text and every item of it", "all programs and all places to cut them: state kept from one item to the next would show only for some pairs of items",
  [L+":parse_rust_file",L+":Point",M+":item",T+":Tokens","src/whitespace_apportioner.rs:WhitespaceApportioner"])
p("Lines in front of a file or behind it",
  "If a text is accepted by the tokenizer and ends neither in whitespace nor in an open block comment (and has no identifier br right before a hash), then with a line end and another text behind it, it has its own tokens, one whitespace token, and the tokens of the other text moved to their place; and the whole is rejected exactly if the other text is. So comments and blank lines put in front of a file move its whole tree, or the place of the error, and change nothing else; comments put behind it change neither the outcome, nor the shape of the tree, nor where its parts are, and an error stays where it is unless it is at the end of the file.",
  "every two texts, every run of whitespace between them that starts with a line end", "all texts: a literal or comment that reaches over the line end would show only for some pairs",
  [T+":Tokens",T+":Point",L+":parse_rust_file","src/whitespace_apportioner.rs:WhitespaceApportioner"])
p("The list of expectations in an error message",
  "The message for a rejected text ends in a list of what was expected at that place: at least one thing, each of them once although it may have been tried and recorded several times, in the fixed order of the declaration (literals of the tokenizer by their texts), and exactly what the outcome holds. So messages do not depend on the order of the attempts; and as names differ and none runs over its line, the list tells exactly what was expected. The programs print these messages.",
  "every rejected text, every set of errors and every order in which they were recorded", "all rejected programs: duplicates and order depend on the alternatives tried before, which differ from text to text",
  [M+":Error",M+":ErrorDetail",M+":ErrorDetailText",T+":Error",T+":ErrorDetail",T+":ErrorDetailText",L+":ErrorDetailText",L+":parse_rust_file"])
p("The dump of a file tells its tree",
  "What {:#?} prints for a syntax tree determines the tree: two values of the same type of the syntax tree that are printed alike are equal, so two accepted texts with the same dump have the same nodes, extents and whitespace. Two runs of the program dump, over any files, that write the same on the standard output have read the same trees, file by file. A part is printed as it would be on its own, four spaces further to the right for each level.",
  "every two values of a type of the syntax tree, every two accepted texts, every two runs of dump", "all pairs of trees: a missing field, or two variants printed alike, would show only for some pairs",
  ["src/ast.rs",L+":Extent","dump/src/main.rs:main"])
p("The listing of the tokenizer program tells the text",
  "From what the tokenizer program writes for a file that it can tokenize one can tell the file: no other text, whether it can be tokenized or not, gives the same output, and the same output means the same tokens with the same extents and the same parts of numbers. There is exactly one line for each token, although tokens may have line ends in them. Two texts that cannot be tokenized give the same output exactly if they fail at the same offset with the same set of expectations.",
  "every two texts, of which one can be tokenized; every table of printable characters", "all pairs of texts: quoting, padding and line ends in tokens could make the outputs of two texts coincide",
  ["tokenizer/src/main.rs:main",T+":Token",T+":Number",T+":Tokens",L+":Extent"])
json_lines=[json.dumps(x) for x in P]
open('/verif/properties.jsonl','w').write("\n".join(json_lines)+"\n")
print(len(P))
