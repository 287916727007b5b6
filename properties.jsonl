{"id": "C01", "title": "Tokens tile the source text", "statement": "If tokenizing a text succeeds, the token extents are contiguous: the first starts at 0, each starts where its predecessor ended, every token except the final EndOfFile is non-empty, and the last one ends at the byte length of the text. Concatenating the text of the tokens gives back the source.", "quantifier": "every source text", "why_tests_cant": "tests compare a handful of literal texts; losslessness is a claim about all texts", "anchors": ["src/tokenizer.rs:Tokens::next", "src/tokenizer.rs:single_token", "src/tokenizer.rs:split_point_at_non_zero_offset"]}
{"id": "C02", "title": "EndOfFile exactly once, at the end", "statement": "Iterating Tokens over any text either yields an error or yields finitely many tokens, of which exactly the last is EndOfFile, located at (len,len), and then yields None forever. The iteration needs at most len+1 calls.", "quantifier": "every source text and every number of next() calls", "why_tests_cant": "termination and the absence of a second EndOfFile cannot be observed by finitely many runs", "anchors": ["src/tokenizer.rs:Tokens::next"]}
{"id": "C03", "title": "Token extents are valid string indices", "statement": "Every token extent (s,e), including the parts of a number token, satisfies s <= e <= len and both ends are UTF-8 character boundaries, so indexing the source with it never panics.", "quantifier": "every source text, every token", "why_tests_cant": "depends on multi-byte characters in every position", "anchors": ["src/tokenizer.rs:Token::extent", "src/lib.rs:Index<Extent>", "src/tokenizer.rs:number"]}
{"id": "C04", "title": "The tokenizer never panics and reports usable error locations", "statement": "Calling next() on Tokens never triggers an assertion or slicing panic; when it yields an error, the location is a character boundary <= len, and the set of expected things is not empty.", "quantifier": "every source text, every call", "why_tests_cant": "absence of panics over all texts is not testable by examples", "anchors": ["src/tokenizer.rs:Tokens::next", "src/tokenizer.rs:ErrorDetail", "src/tokenizer.rs:ex"]}
{"id": "C05", "title": "A tokenizer error is permanent", "statement": "Once the iterator has yielded an error, every later call also yields an error (it never skips input and never ends), so a consumer that wants to stop must stop on the first error; the iterator on its own does not terminate.", "quantifier": "every source text that fails to tokenize and every later call", "why_tests_cant": "infinite behaviour", "anchors": ["src/tokenizer.rs:Tokens::next"]}
{"id": "C06", "title": "Identifiers and keywords are classified by spelling", "statement": "At a position where an identifier starts (and no literal prefix applies), the token is the longest identifier; it has the keyword kind if and only if its whole spelling is one of the 37 keyword spellings, otherwise it is Ident.", "quantifier": "every identifier spelling and every continuation of the text", "why_tests_cant": "infinitely many spellings, including prefixes and extensions of keywords", "anchors": ["src/tokenizer.rs:keyword_or_ident", "src/tokenizer.rs:ident_len"]}
{"id": "C07", "title": "Raw identifiers are never keywords", "statement": "r# followed by an identifier always yields one Ident token covering the prefix and the name, even when the name is a keyword; r# not followed by an identifier, quote or further hash is a hard error, not two tokens.", "quantifier": "every identifier spelling and continuation", "why_tests_cant": "infinitely many spellings", "anchors": ["src/tokenizer.rs:keyword_or_ident", "src/tokenizer.rs:Error::recoverable"]}
{"id": "C08", "title": "Symbols are matched longest first", "statement": "When the text at a position starts with punctuation (and not with a comment), the token is the longest entry of the symbol table that is a prefix of the remaining text.", "quantifier": "every remaining text", "why_tests_cant": "alternative order bugs show only for particular overlaps and continuations", "anchors": ["src/tokenizer.rs:single_token"]}
{"id": "C09", "title": "Whitespace tokens are maximal runs", "statement": "A Whitespace token covers exactly the maximal run of space, tab, CR, LF, U+200E, U+200F characters at its start; two Whitespace tokens are never adjacent.", "quantifier": "every source text", "why_tests_cant": "quantifies over all runs and followers", "anchors": ["src/tokenizer.rs:whitespace"]}
{"id": "C10", "title": "Comments: classification and extent", "statement": "A text starting with // or /* yields exactly one of the six comment kinds, determined by the characters after it; a line comment extends up to but not including the first newline (or to the end of text); a block comment extends through the first */ after its opener, or to the end of text.", "quantifier": "every source text", "why_tests_cant": "all comment bodies", "anchors": ["src/tokenizer.rs:comment_or_doc_comment"]}
{"id": "C11", "title": "Block comments nest", "statement": "A block comment that contains an inner /* */ pair extends to the matching outer */ and an unterminated block comment is an error (as in Rust).", "quantifier": "every nesting", "why_tests_cant": "all nestings", "anchors": ["src/tokenizer.rs:comment_or_doc_comment"]}
{"id": "C12", "title": "String literals end at the first unescaped quote", "statement": "A text starting with a double quote yields a String token ending right after the first quote not preceded by an active backslash escape, whatever follows; if there is none, tokenizing fails.", "quantifier": "every string body and continuation", "why_tests_cant": "all bodies and escapes", "anchors": ["src/tokenizer.rs:string", "src/tokenizer.rs:string_char"]}
{"id": "C13", "title": "Raw strings end at the first matching terminator", "statement": "r, n hashes and a quote yield a StringRaw token that ends right after the first quote followed by n hashes; if there is none the text is not tokenized as a raw string.", "quantifier": "every n, body and continuation", "why_tests_cant": "unbounded number of hashes and bodies", "anchors": ["src/tokenizer.rs:string_raw", "src/tokenizer.rs:raw_string_tail"]}
{"id": "C14", "title": "Character and byte literals versus lifetimes", "statement": "A quote, one character (or a complete escape) and a quote is a Character token; otherwise a quote followed by an identifier is a Lifetime token with the longest identifier.", "quantifier": "every character, identifier and continuation", "why_tests_cant": "all characters, including multi-byte ones and quotes", "anchors": ["src/tokenizer.rs:character", "src/tokenizer.rs:lifetime", "src/tokenizer.rs:byte"]}
{"id": "C15", "title": "Number tokens: structure", "statement": "Every Number token starts with a digit; integral, fractional, exponent and type suffix lie inside the token, in that order and disjoint; the radix is decided by the 0b/0x/0o prefix; integral has at least one digit or underscore; a period belongs to the number only if not followed by a second period or an identifier.", "quantifier": "every number token of every text", "why_tests_cant": "all combinations of optional parts and followers", "anchors": ["src/tokenizer.rs:number", "src/tokenizer.rs:number_value", "src/tokenizer.rs:number_fractional", "src/tokenizer.rs:number_digits"]}
{"id": "C16", "title": "into_simple accepts exactly plain decimal digits", "statement": "Number::into_simple on a number token returns its extent exactly when the text of the token consists only of ASCII digits, otherwise None.", "quantifier": "every number token of every text", "why_tests_cant": "all number spellings", "anchors": ["src/tokenizer.rs:Number::into_simple"]}
{"id": "C17", "title": "Space-separated spellings tokenize back", "statement": "For every sequence of keywords, symbols, identifiers, lifetimes and decimal integers, writing their spellings each followed by a non-empty run of whitespace, and tokenizing gives exactly that sequence (with Whitespace tokens in between) and EndOfFile.", "quantifier": "every finite sequence of such tokens", "why_tests_cant": "sequences of arbitrary length and all adjacent pairs", "anchors": ["src/tokenizer.rs:single_token", "src/tokenizer.rs:Tokens::next"]}
{"id": "C18", "title": "parse_rust_file is total", "statement": "For every text parse_rust_file returns Ok or Err after finitely many steps: none of its assertions, index operations, expect calls or subtractions can fail (no progress, points are backwards, cannot resume a split token, unassigned whitespace, shunting-yard leftovers, out-of-range token).", "quantifier": "every source text", "why_tests_cant": "absence of panics and termination over all inputs", "anchors": ["src/lib.rs:parse_rust_file", "src/parser/mod.rs:State::ex", "src/parser/mod.rs:token", "src/parser/expression.rs:ShuntingYard::finish", "src/parser/mod.rs:TokenPoint"]}
{"id": "C19", "title": "Every extent in a returned file is ordered and in bounds", "statement": "Every Extent anywhere in the AST of an accepted text satisfies start <= end <= len(text).", "quantifier": "every accepted text and every node", "why_tests_cant": "all programs", "anchors": ["src/parser/mod.rs:State::ex", "src/ast.rs:HasExtent"]}
{"id": "C20", "title": "Every extent in a returned file can be used to index the text", "statement": "Every Extent in the AST of an accepted text has both ends on character boundaries, so indexing the text with a node never panics.", "quantifier": "every accepted text and every node", "why_tests_cant": "depends on rare combinations of split tokens and multi-byte whitespace", "anchors": ["src/parser/mod.rs:State::ex", "src/lib.rs:Index<Extent>"]}
{"id": "C21", "title": "Whitespace and comments are conserved", "statement": "After a successful parse, the multiset of Whitespace/Comment entries over all nodes of the file equals the list of whitespace and (non-doc) comment tokens of the text: nothing lost, nothing duplicated.", "quantifier": "every accepted text", "why_tests_cant": "all programs and whitespace placements", "anchors": ["src/lib.rs:extract_whitespace", "src/whitespace_apportioner.rs:WhitespaceApportioner", "src/lib.rs:parse_rust_file"]}
{"id": "C22", "title": "Whitespace is attached to the innermost node that collects whitespace", "statement": "Each whitespace entry is stored in a node whose extent contains the entry's start, and no node visited earlier in post-order that collects whitespace contains its start; entries contained in no such node are stored in the file; within a node entries are in source order.", "quantifier": "every accepted text, every entry", "why_tests_cant": "all programs", "anchors": ["src/whitespace_apportioner.rs:divvy_up", "src/whitespace_apportioner.rs:exit_file", "src/visit.rs:Visit"]}
{"id": "C23", "title": "Apportioning changes only whitespace", "statement": "The file returned is the parsed tree with only the whitespace vectors filled in; no extents, fields or variants change.", "quantifier": "every accepted text", "why_tests_cant": "all programs", "anchors": ["src/whitespace_apportioner.rs:WhitespaceApportioner", "src/visit.rs:VisitorMut"]}
{"id": "C24", "title": "The AST has the documented shape and markers point at the right tokens", "statement": "Every node of a returned AST has exactly the fields of its type in ast.rs, and every leaf extent for a marker such as is_pub/is_mut/is_unsafe/name is the extent of a (possibly split) token of the kind the field names.", "quantifier": "every accepted text and every node", "why_tests_cant": "all programs", "anchors": ["src/ast.rs", "src/parser/mod.rs", "src/parser/expression.rs"]}
{"id": "C25", "title": "Fields appear in source order", "statement": "Within a node everything in an earlier field ends before anything in a later field starts, and the same holds for successive elements of a vector and for the parts of a number. The exceptions are: where clauses of a tuple struct (after its body), the move of an async block (before the body), the value of a shorthand struct literal field (a copy of its name), and an attributed prefix operation (its own extent starts at the attributes).", "quantifier": "every accepted text and every node", "why_tests_cant": "all programs", "anchors": ["src/parser/mod.rs", "src/parser/expression.rs", "src/ast.rs"]}
{"id": "C26", "title": "Child extents lie within their parent's extent", "statement": "The extent of every node is contained in the extent of its enclosing node.", "quantifier": "every accepted text and every node", "why_tests_cant": "all programs", "anchors": ["src/parser/mod.rs:State::ex", "src/ast.rs:HasExtent"]}
{"id": "C27", "title": "Items partition the token stream", "statement": "In an accepted text the items of the file are consecutive: the first begins at the first non-whitespace token, each next begins at the first token at or after the end of the previous one, and after the last only EndOfFile remains; every parsed item consumes at least one token.", "quantifier": "every accepted text", "why_tests_cant": "all programs", "anchors": ["src/lib.rs:parse_rust_file"]}
{"id": "C28", "title": "No token is silently dropped", "statement": "Every non-whitespace token of an accepted text was consumed by some production of the grammar: acceptance never skips over tokens.", "quantifier": "every accepted text", "why_tests_cant": "all programs; the offending inputs are malformed ones nobody writes into a test-suite", "anchors": ["src/parser/combinators.rs:zero_or_more_tailed_append", "src/parser/combinators.rs:parse_tailed"]}
{"id": "C29", "title": "Error location of a rejected file", "statement": "When parsing is rejected, the reported location is the start of a token of the text, it is the furthest token any alternative reached, and the set of expected things is not empty; rendering the error with the text does not panic.", "quantifier": "every rejected text", "why_tests_cant": "all malformed programs", "anchors": ["src/lib.rs:parse_rust_file", "src/lib.rs:HumanTextError::new", "src/parser/mod.rs:ErrorDetail"]}
{"id": "C30", "title": "Human-readable error: line and excerpt", "statement": "For every text and every character-boundary location, the reported line is one plus the number of newlines before it, and the excerpt printed is the line containing the location.", "quantifier": "every text and location", "why_tests_cant": "all texts and locations", "anchors": ["src/lib.rs:HumanTextError::new"]}
{"id": "C31", "title": "Human-readable error: column", "statement": "The reported column and the caret position are computed the same way on every line: column = bytes between the start of the line and the location, plus a constant.", "quantifier": "every text and location", "why_tests_cant": "all texts and locations", "anchors": ["src/lib.rs:HumanTextError::new", "src/tokenizer.rs:ErrorDetailText::fmt", "src/parser/mod.rs:ErrorDetailText::fmt"]}
{"id": "C32", "title": "Visitor events are well nested and complete", "statement": "Visiting a tree with a visitor that always continues produces, for every node, exactly one visit and one exit event, properly nested like parentheses, children between them in field order.", "quantifier": "every AST", "why_tests_cant": "all trees and depths", "anchors": ["src/visit.rs:Visit", "fuzzy-pickles-derive/src/lib.rs", "src/ast.rs:Attributed"]}
{"id": "C33", "title": "Break prunes exactly the children", "statement": "If a visitor answers Break for a node, none of the events of its descendants happen, its own exit event does, and the rest of the traversal is unaffected.", "quantifier": "every AST and every visitor", "why_tests_cant": "all trees and all stateful visitors", "anchors": ["src/visit.rs:Control", "fuzzy-pickles-derive/src/lib.rs", "src/ast.rs:Attributed"]}
{"id": "C34", "title": "Compound tokens split consistently", "statement": "When the parser takes only the first part of a compound token (<<, >>, >>=, >=, ||, &&), the parts taken are adjacent and together cover exactly the token; a partially consumed token can always be resumed.", "quantifier": "every token sequence and parse position", "why_tests_cant": "all histories of partial consumption", "anchors": ["src/parser/mod.rs:split", "src/parser/mod.rs:token", "src/parser/mod.rs:TokenPoint"]}
{"id": "C35", "title": "Nested generics close however the angle brackets are glued", "statement": "A type with generics nested to any depth parses to the same tree (same nesting) whether the closing angle brackets are written separated or glued into >> tokens.", "quantifier": "every nesting depth and every gluing", "why_tests_cant": "unbounded depth", "anchors": ["src/parser/mod.rs:split", "src/parser/mod.rs:typ_generic", "src/parser/mod.rs:token"]}
{"id": "C36", "title": "Infix chains associate to the left", "statement": "A chain of operands joined by infix operators parses to the left-nested tree over exactly those operands and operators in order.", "quantifier": "every chain of operators and operands", "why_tests_cant": "unbounded chains", "anchors": ["src/parser/expression.rs:ShuntingYard", "src/parser/expression.rs:expression_shunting_yard"]}
{"id": "C37", "title": "Operators respect Rust precedence", "statement": "Multiplicative operators bind tighter than additive ones, unary operators bind tighter than infix but looser than method calls and field accesses, and so on, as in Rust.", "quantifier": "every expression", "why_tests_cant": "all operator combinations", "anchors": ["src/parser/expression.rs:OperatorInfix::precedence", "src/parser/expression.rs:should_pop"]}
{"id": "C38", "title": "Macro arguments are balanced token runs", "statement": "The arguments of an accepted macro invocation are the tokens up to the closing delimiter that matches the opening one: inside, delimiters of that kind are balanced, and the closing one is the first that is not matched inside.", "quantifier": "every token run", "why_tests_cant": "unbounded nesting", "anchors": ["src/parser/combinators.rs:parse_nested_until", "src/parser/mod.rs:macro_call"]}
{"id": "C39", "title": "Attributes and doc comments are kept in order", "statement": "The attributes and doc comments directly in front of an item are exactly the attributes list of that item, in source order.", "quantifier": "every number of attributes", "why_tests_cant": "unbounded lists", "anchors": ["src/parser/mod.rs:attributed", "src/parser/mod.rs:attribute"]}
{"id": "C40", "title": "The struct-literal restriction is scoped", "statement": "Parsing any construct leaves the struct-literal restriction exactly as it found it, whether it succeeds or fails; inside parentheses, brackets and call arguments the restriction is lifted.", "quantifier": "every parser function, input and initial restriction", "why_tests_cant": "every exit path of every function", "anchors": ["src/parser/expression.rs:set_ambiguity_level", "src/parser/mod.rs:State"]}
{"id": "C41", "title": "Trailing expression of a block", "statement": "A block's expression field is the final expression statement that is not followed by a semicolon; all preceding statements, in order, are in statements.", "quantifier": "every block", "why_tests_cant": "all statement lists", "anchors": ["src/parser/mod.rs:block", "src/parser/combinators.rs:zero_or_more_implicitly_tailed_append"]}
{"id": "C42", "title": "Layout does not change the parse", "statement": "Two texts with the same sequence of non-whitespace, non-comment tokens (same kinds, same simple-number status) are both accepted or both rejected, with the same tree shape and the same reported token on error; only extents and whitespace differ.", "quantifier": "every pair of texts with the same significant tokens", "why_tests_cant": "a relation between two runs over all texts", "anchors": ["src/parser/mod.rs:token", "src/lib.rs:extract_whitespace"]}
{"id": "C43", "title": "Use declarations parse completely and exactly", "statement": "Every use declaration built from a path followed by a name, rename, wildcard or nested brace group (to any depth) is accepted and the tree returned has exactly that structure.", "quantifier": "every use tree", "why_tests_cant": "unbounded nesting", "anchors": ["src/parser/mod.rs:p_use", "src/parser/mod.rs:use_tail"]}
{"id": "C44", "title": "Types parse completely and exactly", "statement": "Every type built from references, pointers, slices, arrays, tuples, never, and paths with generic arguments is accepted and the tree returned has exactly that structure.", "quantifier": "every type of that fragment", "why_tests_cant": "unbounded nesting", "anchors": ["src/parser/mod.rs:typ"]}
{"id": "C45", "title": "Parsing is monotone in the amount of recursion allowed", "statement": "The result of parsing is independent of how deep the recursion is allowed to go once it is deep enough, and a depth linear in the number of tokens is always enough (the recursion depth of the parser is bounded linearly).", "quantifier": "every source text", "why_tests_cant": "stack depth over all inputs", "anchors": ["src/parser/mod.rs", "src/parser/expression.rs", "src/parser/combinators.rs"]}
{"id": "C46", "title": "Files parse as written", "statement": "A text made of items that follow the grammar of the separate specification (modules, uses, structs, enums, unions, traits, impls, extern blocks, constants, functions with bodies, macros, with attributes, visibilities, generics, where clauses, types, patterns, statements, expressions) is accepted, and the AST has exactly the nodes, fields, names and order the specification gives the text.", "quantifier": "every sequence of items, nested to any depth, in every layout and gluing of tokens", "why_tests_cant": "unbounded nesting of every construct in every other", "anchors": ["src/lib.rs:parse_rust_file", "src/parser/mod.rs:item", "src/parser/mod.rs:typ", "src/parser/mod.rs:pattern", "src/parser/expression.rs:expression"]}
{"id": "C47", "title": "Agreement with Rust outside that fragment", "statement": "Every text that Rust accepts is accepted and read as Rust reads it, and what Rust rejects as malformed is rejected, also outside the fragment of C46 (paths starting with crate in tuple structs, attributes of generic parameters, separators, nested tuple indices).", "quantifier": "every text", "why_tests_cant": "the interesting texts are combinations nobody thought of", "anchors": ["src/lib.rs:parse_rust_file", "src/parser/mod.rs:struct_definition", "src/parser/mod.rs:function_arglist", "src/parser/expression.rs:expr_field_access"]}
{"id": "C48", "title": "Nodes start and end at their tokens", "statement": "The extent of every syntax node starts with a token that its syntax starts with (if for an if expression, a visibility or fn or a qualifier for a function, ( for a tuple, ...) and, where the syntax has a fixed last token, ends with it (}, ), ], ;).", "quantifier": "every accepted text and every node", "why_tests_cant": "all programs", "anchors": ["src/parser/mod.rs:State::ex", "src/parser/mod.rs", "src/parser/expression.rs", "src/ast.rs"]}
{"id": "C49", "title": "Operators lie between their operands", "statement": "In every node for an operation (binary, unary, range, field access, call, index, cast, ascription, ?) the token that spells the operator recorded in the node lies in the text behind the whole left operand and before the whole right operand, inside the extent of the node.", "quantifier": "every accepted text and every operation in it", "why_tests_cant": "all expressions", "anchors": ["src/parser/expression.rs:OperatorInfix", "src/parser/expression.rs:OperatorPrefix", "src/parser/expression.rs:OperatorPostfix", "src/parser/expression.rs:expression"]}
{"id": "C50", "title": "The stats program counts statements", "statement": "For an accepted file the stats program prints the number of statements in its syntax tree, however deeply they are nested.", "quantifier": "every accepted text", "why_tests_cant": "all programs", "anchors": ["stats/src/main.rs:Stats", "src/visit.rs:Visitor", "src/ast.rs:Statement"]}
{"id": "C51", "title": "The programs handle files in order and report failures", "statement": "stats and dump handle the files in the order given; stats --keep-going gives each file its line or its complaint; otherwise the program stops at the first file that is not accepted, after what it printed for the ones before, and names it. No program ends in a panic of the library.", "quantifier": "every list of files", "why_tests_cant": "all histories of files", "anchors": ["stats/src/main.rs:main", "dump/src/main.rs:main", "tokenizer/src/main.rs:main"]}
{"id": "C52", "title": "The tokenizer program shows the whole file", "statement": "The tokenizer program prints the tokens in order, numbered from 0, each with its text; the texts put together are the file.", "quantifier": "every text", "why_tests_cant": "all texts", "anchors": ["tokenizer/src/main.rs:main"]}
{"id": "C53", "title": "Keywords and symbols lie between the parts they separate", "statement": "For every kind of syntax node the keywords and symbols of its construct (: and = of a constant, in of a for loop, => of a match arm, -> of a function, brackets around lists, ...) stand in the text behind the parts the syntax puts before them and in front of the parts it puts after them.", "quantifier": "every accepted text and every node", "why_tests_cant": "all programs", "anchors": ["src/parser/mod.rs", "src/parser/expression.rs", "src/ast.rs"]}
{"id": "C54", "title": "Elements of lists are separated", "statement": "Between two neighbours of a list in the syntax tree (arguments of a call, fields, variants, members of a tuple, bounds, components of a path, alternatives of a match arm, ...) the text has the separator of that list; match arms and statements may do without it only behind an element that ends itself (items, block-like expressions, macros in braces, arms with a block). A receiver without a comma behind it and a lifetime without a comma before a type parameter are exceptions, proved to be accepted.", "quantifier": "every accepted text, every list and every pair of neighbours", "why_tests_cant": "all programs", "anchors": ["src/parser/combinators.rs:zero_or_more_tailed_values", "src/parser/combinators.rs:one_or_more_tailed_values", "src/parser/mod.rs", "src/parser/expression.rs"]}
{"id": "C55", "title": "Expectations can be trusted", "statement": "What a rejection lists as expected depends only on the tokens before the reported one; it never asks for the kind of token that is there; and any text with the same tokens before, and a token that is asked for in place of the reported one, is accepted or rejected at a later token. The list need not be complete (separators and the colon behind an argument's name are missing from it). The six tokens that the grammar may read in two halves are left out.", "quantifier": "every rejected text, every entry of its list of expectations and every continuation", "why_tests_cant": "all texts and all repairs of them", "anchors": ["src/lib.rs:parse_rust_file", "src/parser/mod.rs:Error", "src/parser/mod.rs:token", "peresil:ParseMaster"]}
{"id": "C56", "title": "Heads of control flow hold no bare struct literal", "statement": "In an accepted file the head of every if, while, for and match expression, the part in front of the opening brace, contains no struct literal, unless inside parentheses, brackets, the arguments of a call, an index, or the arms of a match.", "quantifier": "every accepted text and every if, while, for and match in it, however deeply nested", "why_tests_cant": "all programs", "anchors": ["src/parser/expression.rs:expr_followed_by_block", "src/parser/expression.rs:expr_match", "src/parser/expression.rs:expr_value", "src/parser/expression.rs:set_ambiguity_level", "src/parser/expression.rs:expression_shunting_yard"]}
{"id": "C57", "title": "Delimiters of an accepted file pair up", "statement": "In an accepted file every opening parenthesis, bracket and brace has its closing partner and they nest properly. The text of a macro invocation or attribute is balanced in the delimiters around it. In a file with neither ! nor #, there are as many closing as opening delimiters of each kind.", "quantifier": "every accepted text", "why_tests_cant": "all programs, all depths of nesting", "anchors": ["src/lib.rs:parse_rust_file", "src/parser/expression.rs:expression", "src/parser/mod.rs:block", "src/parser/mod.rs:attribute_literal", "src/parser/mod.rs:item_macro_call"]}
{"id": "C58", "title": "if let and while let make no nodes of their own", "statement": "In an accepted file whose array types have lengths without parentheses, brackets or braces, no IfLet and no WhileLet node occurs, in spite of these names: an if let becomes an If node with a Let expression in its condition. (It is proved that if let need not make an IfLet node, and that the condition on lengths is needed.)", "quantifier": "every accepted text with such lengths", "why_tests_cant": "all programs: that the later alternative of the parser never matches is a statement about all texts", "anchors": ["src/parser/expression.rs:expression_atom", "src/parser/expression.rs:expr_if", "src/parser/expression.rs:expr_if_let", "src/parser/expression.rs:expr_while", "src/parser/expression.rs:expr_while_let", "src/parser/expression.rs:expr_let"]}
{"id": "C59", "title": "Visitors that change the tree", "statement": "A traversal by a visitor that may change nodes shows each node to visit_*, goes through the visited fields of what visit_* left (unless it answered Break; Attributed wrappers are always gone through), and hands the result to exit_*; entries and exits nest. Whatever all the methods keep, the whole traversal keeps: fields that are not visited and everything no method touches stay as they are, and methods that keep the types of nodes keep the type of the tree. A visitor that changes nothing sees exactly what the reading traversal shows. The traversal ends if no visit_* method makes its node deeper (and need not otherwise). A parsed file is what such a traversal with the whitespace apportioner leaves of the parsed items.", "quantifier": "every tree, every visitor with every state and history", "why_tests_cant": "all trees and all visitors, including those of users", "anchors": ["src/visit.rs:VisitorMut", "src/visit.rs:Visit::visit_mut", "fuzzy-pickles-derive/src/lib.rs:impl_visit", "fuzzy-pickles-derive/src/lib.rs:impl_visit_fields", "src/ast.rs:Attributed", "src/whitespace_apportioner.rs:WhitespaceApportioner"]}
{"id": "C60", "title": "Methods of nodes tell their variants and extents", "statement": "For every token, every number and every value of an enum of the syntax tree exactly one is_* method answers true, the one named after its variant (different variants have methods of different names); as_* and into_* of that variant give what is in it, of the declared type, and those of other variants give None. Every node of a parsed file, of every type that has an extent, has exactly the extent stored in it, within the text; indexing the text with the node gives the part of the text with these offsets (in texts without U+200E/U+200F).", "quantifier": "every token, every enum, every variant, every value; every accepted text and every node of it", "why_tests_cant": "all programs and all nodes; indexing panics if an extent is wrong", "anchors": ["fuzzy-pickles-derive/src/lib.rs:camelcase_to_snake_case", "fuzzy-pickles-derive/src/lib.rs:impl_decompose", "fuzzy-pickles-derive/src/lib.rs:impl_has_extent", "fuzzy-pickles-derive/src/lib.rs:impl_extent_index", "src/ast.rs", "src/tokenizer.rs:Token", "src/tokenizer.rs:Number"]}
{"id": "C61", "title": "What stands in front of an item does not matter", "statement": "If a text is accepted and one of its items starts at some offset, the text from that offset on is accepted on its own, and gives exactly that item and the later ones with the whitespace inside and between them, every position less by that offset. So the same item text, with the same text behind it, gives the same tree whatever items stand in front of it.", "quantifier": "every accepted text and every item of it", "why_tests_cant": "all programs and all places to cut them: state kept from one item to the next would show only for some pairs of items", "anchors": ["src/lib.rs:parse_rust_file", "src/lib.rs:Point", "src/parser/mod.rs:item", "src/tokenizer.rs:Tokens", "src/whitespace_apportioner.rs:WhitespaceApportioner"]}
{"id": "C62", "title": "Lines in front of a file or behind it", "statement": "If a text is accepted by the tokenizer and ends neither in whitespace nor in an open block comment (and has no identifier br right before a hash), then with a line end and another text behind it, it has its own tokens, one whitespace token, and the tokens of the other text moved to their place; and the whole is rejected exactly if the other text is. So comments and blank lines put in front of a file move its whole tree, or the place of the error, and change nothing else; comments put behind it change neither the outcome, nor the shape of the tree, nor where its parts are, and an error stays where it is unless it is at the end of the file.", "quantifier": "every two texts, every run of whitespace between them that starts with a line end", "why_tests_cant": "all texts: a literal or comment that reaches over the line end would show only for some pairs", "anchors": ["src/tokenizer.rs:Tokens", "src/tokenizer.rs:Point", "src/lib.rs:parse_rust_file", "src/whitespace_apportioner.rs:WhitespaceApportioner"]}
{"id": "C63", "title": "The list of expectations in an error message", "statement": "The message for a rejected text ends in a list of what was expected at that place: at least one thing, each of them once although it may have been tried and recorded several times, in the fixed order of the declaration (literals of the tokenizer by their texts), and exactly what the outcome holds. So messages do not depend on the order of the attempts; and as names differ and none runs over its line, the list tells exactly what was expected. The programs print these messages.", "quantifier": "every rejected text, every set of errors and every order in which they were recorded", "why_tests_cant": "all rejected programs: duplicates and order depend on the alternatives tried before, which differ from text to text", "anchors": ["src/parser/mod.rs:Error", "src/parser/mod.rs:ErrorDetail", "src/parser/mod.rs:ErrorDetailText", "src/tokenizer.rs:Error", "src/tokenizer.rs:ErrorDetail", "src/tokenizer.rs:ErrorDetailText", "src/lib.rs:ErrorDetailText", "src/lib.rs:parse_rust_file"]}
{"id": "C64", "title": "The dump of a file tells its tree", "statement": "What {:#?} prints for a syntax tree determines the tree: two values of the same type of the syntax tree that are printed alike are equal, so two accepted texts with the same dump have the same nodes, extents and whitespace. Two runs of the program dump, over any files, that write the same on the standard output have read the same trees, file by file. A part is printed as it would be on its own, four spaces further to the right for each level.", "quantifier": "every two values of a type of the syntax tree, every two accepted texts, every two runs of dump", "why_tests_cant": "all pairs of trees: a missing field, or two variants printed alike, would show only for some pairs", "anchors": ["src/ast.rs", "src/lib.rs:Extent", "dump/src/main.rs:main"]}
{"id": "C65", "title": "The listing of the tokenizer program tells the text", "statement": "From what the tokenizer program writes for a file that it can tokenize one can tell the file: no other text, whether it can be tokenized or not, gives the same output, and the same output means the same tokens with the same extents and the same parts of numbers. There is exactly one line for each token, although tokens may have line ends in them. Two texts that cannot be tokenized give the same output exactly if they fail at the same offset with the same set of expectations.", "quantifier": "every two texts, of which one can be tokenized; every table of printable characters", "why_tests_cant": "all pairs of texts: quoting, padding and line ends in tokens could make the outputs of two texts coincide", "anchors": ["tokenizer/src/main.rs:main", "src/tokenizer.rs:Token", "src/tokenizer.rs:Number", "src/tokenizer.rs:Tokens", "src/lib.rs:Extent"]}
