# Formal model of shepmaster/fuzzy-pancake (crate `fuzzy-pickles`)

## What is modelled, and how

* **Text** (`Base.v`): a `&str` is a list of Unicode code points (`list N`); every
  offset is a *byte* offset computed with `char::len_utf8`.  `str::split_at`,
  slicing and `find` are modelled on byte offsets and return "panic" when the
  offset is not a character boundary, exactly where Rust would panic.
* **peresil** (`Peresil.v`): the external parser-combinator crate
  (`Progress`, `ParseMaster`, `Failures`, `alternate`, `optional`,
  `zero_or_more`, `finish`), modelled from its documented behaviour; it is not
  in /repo, so this is part of the trusted base.
* **Tokenizer** (`Tokenizer.v`): `src/tokenizer.rs`, function by function, as
  Gallina functions over the peresil model.  `UnicodeXID::is_xid_start` /
  `is_xid_continue` are explicit arguments (any two predicates) — no axiom.
* **Parser** (`Grammar.v`, `Table.v`): `src/parser/*.rs` as a deep embedding.
  `Grammar.v` has the combinators (`sequence!`, `alternate`, `optional`,
  tailed lists, `parse_nested_until`, the shunting-yard, ...) and an interpreter
  `exec` which threads the parse master (failures + ambiguity level) and
  returns Success/Failure/Panic/OutOfFuel; `Table.v` has one entry per Rust
  parser function, citing its lines.
* **AST** (`Value.v`, `Schema.v`): `src/ast.rs` as generic trees plus a schema
  (which fields, of which type, each struct and enum has, and which are visited).
* **Visitor and whitespace** (`Visit.v`, `VisitMut.v`, `Apportion.v`):
  `src/visit.rs`, the derive macro, the `Attributed` impls,
  `src/whitespace_apportioner.rs`.
* **Generated methods** (`Accessors.v`, `TokenMethods.v`): `Decompose`, `HasExtent` and `ExtentIndex` of
  the derive crate, for the types of `src/ast.rs`, and `Decompose` for tokens and numbers.
* **Entry point** (`Lib.v`, `Report.v`): `src/lib.rs` — `extract_whitespace`,
  `parse_rust_file`, `HumanTextError::new`, and the messages with the sets of errors in
  them. `Debug` of literals escapes what the tokenizer's literals need.
* **Programs** (`Tools.v`, `Dump.v`, `Listing.v`): the `main` functions of `stats`, `dump` and `tokenizer`,
  given what opening and reading each file yields, what `{:#?}` prints for a tree, and the lines of
  the tokenizer program (which characters `Debug` of `str` escapes is a parameter).
* **Conformance** (`Conformance.v`): the unit tests of /repo replayed on the model by
  computation.  These are tests of faithfulness, not proofs.

`Schema.v`, `Nt.v`, `Table.v` and `Conformance.v` are generated from /repo by
`tools/gen_*.py` and committed; the scripts are not trusted to be right, the
generated files are what the theorems are about.

Not modelled: argument parsing and logging of the programs, memory/stack exhaustion, usize overflow (offsets are unbounded naturals).

## Layers of the development

| layer | files | what it gives |
|-------|-------|---------------|
| tokenizer | `Tokenizer*.v`, `CommentSpec.v`, `Properties{Tokenizer,Comments}.v` | the tokens are exactly those of an independent lexical specification |
| safety of the parser | `Points.v` … `RunOk.v`, `Items.v`, `LibOk.v`, `PropertiesFile.v` | no abort, enough fuel, valid points, well-typed results |
| whitespace, visitors | `Whitespace*.v`, `Visit*.v`, `MutSpec.v`, `MutOk.v`, `Accessors.v`, `TokenMethods.v`, `Properties{Visit,Mut,Accessors,TokenMethods}.v` | induction over trees |
| relations between runs | `Rel.v`, `Layout.v`, `Split.v`, `Shift.v`, `Cut.v`, `Join.v`, `Behind.v`, `Properties{Parser,Cut,Join}.v` | layout, fuel, failures and what stands in front do not matter; lines around a file |
| texts to trees | `Sem.v`, `First.v`, `RustSpec.v`, `*Ok.v`, `SyntaxOk.v`, `PropertiesSyntax.v`, `PropertiesExpr.v` | what follows the rules of `RustSpec.v` is accepted with the tree the rules give |
| trees to texts | `Deriv*.v`, `Spans*.v`, `Marks*.v`, `Lands*.v`, `Properties{Spans,Marks,Lands}.v` | every accepted text: its tree is laid out like it, markers mark their tokens, tokens and separators are between the parts |
| programs | `Tools.v`, `Dump.v`, `Listing.v`, `Properties{Tools,Dump,Listing}.v` | what the programs print |
| reports | `Reach.v`, `Ahead.v`, `AheadFile.v`, `Expect.v`, `Honest.v`, `ExpectFile.v`, `Report.v`, `Properties{Errors,Report}.v` | nothing behind the reported token is involved in a rejection; what the expectations say; the text of messages |
| heads | `HeadSpec.v`, `Heads.v`, `HeadsOk.v`, `HeadsFile.v`, `PropertiesHeads.v` | no bare struct literals in the heads of control flow |
| delimiters | `Inv.v`, `DelimSpec.v`, `Delims.v`, `DelimsFile.v`, `PropertiesDelims.v` | delimiters of accepted files pair up |
| alternatives that never match | `Level.v`, `Dead.v`, `Kinds.v`, `LetSpec.v`, `Counts.v`, `KindsFile.v`, `PropertiesKinds.v` | `if let` and `while let` make no nodes of their own |
| coverage | `CoverSpec.v`, `Cover.v`, `CoverOk.v`, `CoverTidy.v`, `CoverFile.v`, `DropSpec.v`, `Drops.v`, `DropsOk.v`, `DropsNeat.v`, `DropsVals.v`, `DropsFile.v`, `Origin.v`, `DropsSplit.v`, `DropsWhole.v`, `AccountSpec.v`, `Account.v`, `PropertiesCover.v` | nodes hold only their parts and their own words; behind which list the rest stands |

Specifications are in files of their own, which do not refer to the parser:
`TokenizerSpec.v`, `CommentSpec.v`, `FileSpec.v`, `VisitSpec.v`, `MutSpec.v`, `OutlineSpec.v`, `UseSpec.v`,
`RustSpec.v`, `SpanSpec.v`, `MarkSpec.v`, `LandSpec.v`, `HeadSpec.v`, `CoverSpec.v`, `DropSpec.v`, `AccountSpec.v`, `DelimSpec.v`, `LetSpec.v`.

## How each property is proved

| id | model | proof |
|----|-------|-------|
| C01 | `Tokenizer.v` tokens iterator | progress+extent lemma for every token parser, induction over the iteration |
| C02 | same | induction on the remaining length; fuel bound |
| C03 | same | character-boundary invariant carried by every token parser |
| C04 | same | no parser returns Panic; furthest-failure invariant |
| C05 | same | stuck-point lemma: same point fails again |
| C06 C07 | keyword_or_ident in single_token | case analysis, independent spelling table |
| C08 | single_token | the symbol list is checked against an independent "longest prefix" specification |
| C09 C10 C11 | whitespace, comment parsers | take_while / find specifications; C11 is refuted by witness |
| C12 C13 C14 | string / raw string / char parsers | independent scan specifications |
| C15 C16 | number parsers | structure lemmas |
| C17 | single_token + iterator | per-token lemma "spelling followed by blank", induction over the list |
| C18 | everything | termination measure by (tokens left, grammar rank); validity invariant of points; typing of the grammar table |
| C19 C20 | exec + State::ex | extent invariant; C20 refuted by witness, partial under a side condition |
| C21 C22 C23 | Apportion | induction over trees |
| C24 | Schema, exec | typing theorem for the interpreter; `Marks`: static analysis of the table, checked by computation, sound by induction over derivations |
| C25 C26 | exec | `Spans`: static analysis of the table, sound by induction over derivations; C26 refuted, partial |
| C27 | Lib | invariant of the item loop |
| C28 | exec | refuted by witness; partial: `Cover`: static analysis of which tokens are read outside what is kept, sound by induction over derivations; `Drops`: behind which list, or in front of which operation, the rest of them stand, and that behind a list they begin as an element of it may begin (the first-token sets of `First.v`) |
| C29 | exec + Peresil | failures invariant; `Reach`: the furthest recorded failure never moves back, and a failure that is dropped was recorded (static analysis of the table); `Ahead`: two runs on token lists that agree up to a token go in lockstep until the first one gets past it |
| C30 C31 | HumanTextError | C31 refuted |
| C32 C33 | Visit | induction over trees; the Attributed part of C33 refuted |
| C34 | token/split | case analysis + validity invariant |
| C35 C43 C44 | Table | completeness proofs by induction over specification trees, first-set lemma |
| C36 C37 | shunting-yard | induction over chains; C37 refuted |
| C38 | parse_nested_until | independent depth-count specification |
| C39 | attributed | induction |
| C40 | exec | induction on fuel |
| C41 | block | refuted/partial |
| C42 | exec | simulation between two token lists with the same kinds |
| C45 | exec | fuel monotonicity and linear bound |
| C46 | Table | `RustSpec` rules; every rule is shown to be followed by the parser, then induction over rule trees |
| C47 | Table | refuted by witnesses |
| C48 C49 | exec, shunting-yard | `Marks`, as C24 |
| C50 C51 C52 | Tools | induction over trees, over the list of files, over tokens |
| C53 C54 | exec | `Lands`: static analysis of the table on top of `Spans`, sound by induction over derivations |
| C55 | exec + Peresil | `Ahead` again, against a list cut off at the reported token; `Honest`: invariant of the recorded failures, the errors of the table checked against `Expect.v` |
| C56 | exec | `Heads`: static analysis of the table with the restriction on and off, sound by induction on the fuel of runs (derivations forget the restriction) |
| C57 | exec | `Delims`: static walk through every production with the stack of open delimiters, sound by induction on the fuel of runs, for what is read and for what a failing parser has read |
| C58 | exec | `Counts`: an expression between brackets without delimiters reads the same at every level of the restriction; `Level`: so do patterns and types; `Dead`: `if` succeeds wherever `if let` would; `Kinds`: no such nodes, by induction on the fuel of runs |
| C59 | exec + relation | `VisitMut`: the traversal with fuel (a visitor may make a tree without end); `MutSpec`: traversals as a relation; both agree, by induction on the fuel and on traversals; what methods keep, by induction on traversals |
| C60 | exec | `Accessors`: methods looked up by their generated names; the names are injective by induction on strings; extents by induction on well-typed values and a check of the schema; tokens likewise, and the parser's converters are the methods of these names |
| C61 | exec | `Shift`: a run at a later token and the run on the tokens from there on correspond, with parser positions and extents moved (induction on the fuel, as in `Rel`); `Cut`: the same for the tokenizer, the item loop and the apportioner |
| C62 | lex + exec | `Join`: each token of the first text is still the token there when a line follows (case analysis of the lexical specification; a literal over the line end would have to be open, and then what follows in the first text would not be tokens); the file level by `Cut` and C42, and for lines behind a file by `Behind`: the runs on both texts are related by putting positions behind the end of the first back to it |
| C63 | exec | `Report`: the sets of errors as sorted lists (insertion keeps them sorted; sorted lists with the same elements are equal), names injective by a check of the list, escapes of literals decoded by induction |
| C64 | exec | `Dump`: the derived `Debug` in the alternate format; by induction over values, equal texts with anything delimited behind them have equal values and equal rests, so no text is ambiguous; indentation against the standard library's padding adapter |
| C65 | exec | `Listing`: the lines as texts; names, extents, numbers and escapes decoded from the left, by induction over the tokens; a quoted text is longer than the extent of its token, so that quoted and plain texts are told apart |

A property the faithful model violates is recorded as `..._refuted` with a concrete
witness text, together with the strongest part that holds (`..._partial`).

## Trusted base

* Coq 8.16.1 kernel (and its VM for `vm_compute`).
* `Print Assumptions` is run for each property theorem in the Properties files; every
  one answers "Closed under the global context": no axioms, of the standard library
  or otherwise, are used.
* The reading of Rust and of peresil 0.4.0-alpha embodied in the model; every
  definition of the model cites the lines it models.
* The two predicates of unicode-xid are arguments.  Theorems about `parse_rust_file`
  assume `xid_sane` of them: what the Unicode tables say of the ASCII characters and
  of U+200E and U+200F; nothing is assumed of other characters.

## Wrong programs

`seeded/LOG.jsonl` records edits of the model that mimic bugs, the claims they break
and the theorems that fail (`tools/mutate.py` rebuilds a scratch copy for each).
