"""Write MANIFEST.json from the table below and the Properties files.

A claim's theorems are all theorems named Cnn_... in rocq/theories/Properties*.v.
"""
import glob, json, re, os
ROOT = os.path.dirname(os.path.dirname(os.path.abspath(__file__)))
STATUS = {
    "C26": ("partial", "False of this code: empty trait bounds are placed at the next token, outside their parent, and the extents of struct literal fields and of pattern names are always empty. Proved for every non-empty extent below every node of any other kind."),
    "C28": ("partial", "False of this code: struct S { pub } is accepted and pub is dropped, because a list whose last element fails in the middle ends where the element failed. Proved: in nodes of 107 kinds (CoverSpec.v) every token is a word of the construct or lies in one of the parts; in the 33 kinds that hold lists (DropSpec.v) a token that is neither stands behind all the elements of one of the lists, and in front of the fields behind that list, and the dropped tokens begin with a token that an element of the list may begin with (the table openings of DropSpec.v); in the types of functions it stands between the parentheses; in the 6 kinds of prefix operations and ranges, a token that is neither stands in front of every part. C28_every_token_partial puts this together: every token of a file is accounted for by a node. Missing: that dropped tokens are no whole element (C46 says which elements there are in the texts of its grammar); and tokens read in two steps such as >>."),
    "C37": ("partial", "False of this code: all infix operators have the same precedence, and fields and calls apply to the whole expression before them. Proved as refutations; prefix operators do apply before infix ones."),
    "C41": ("partial", "False of this code for a last expression that stands behind a semicolon: it is always kept as a statement. Proved: every other block."),
    "C47": ("partial", "False of this code. Proved as refutations only."),
    "C20": ("partial", "Proved for texts without U+200E/U+200F (and starts always); refuted in general: a node that ends in the middle of a split token after such a mark ends inside a character."),
    "C31": ("partial", "False of this code: the column of the first line is one less than that of other lines, and its caret is misplaced. Proved: the exact columns and the exact report."),
    "C40": ("partial", "Restoring is proved; lifting is proved for parentheses, explicit arrays, call arguments, indices, match arms and struct literals, and refuted for the count of [value; count] and for blocks."),
    "C32": ("partial", "Nesting, balance and uniqueness are proved, and that every node is entered and left once, for all kinds of nodes but those that occur in pub(...), in the whitespace of Attributed nodes and as operators; that every node is visited is refuted: the path of pub(path) and comments kept by an Attributed node are not visited."),
    "C33": ("partial", "Proved for all nodes but Attributed ones; refuted for those: the answer of visit_attributed_* is ignored."),
    "C11": ("partial", "False of this code: block comments do not nest, and an unterminated one is accepted. Both are proved as refutations. Proved: a block comment ends exactly where Rust ends it, unless another one is opened inside it or it is not closed, and every closed comment without others inside is one token."),
}
NOTES = {
    "C58": "The condition is plain_lengths of LetSpec.v; C58_length_ex shows an IfLet node where it fails. C58_if_let_refuted refutes what the names of the nodes suggest.",
    "C57": "DelimSpec.v makes the exception for texts behind ! and #, whether or not the ! belongs to a macro invocation.",
    "C24": "The parts of number literals are those of the number token; the text of attributes and macro arguments is in C38 and C39, comments in C21.",
    "C48": "The tables say nothing of the end of nodes that may end with a closing angle bracket (their extent may end too early, C20 and C34) or with a part of any syntax, and nothing of nodes that may start with any type, pattern or expression.",
    "C53": "The table (LandSpec.v) leaves out the double colons of use paths, the arrow of closures and the as of <T as U>; nothing is said of the end of a node behind half of a compound token.",
    "C54": "Lists of the table in LandSpec.v. Arguments of functions are left out: the comma behind a receiver is optional in this code (C54_receiver_and_lifetimes_refuted).",
    "C55": "C55_complete_refuted shows that the list does not name everything that would be taken. ExpectedNumber is taken to ask for plain decimal numbers only, which is what a tuple index needs.",
    "C25": "Stated with the exceptions named in the property; C25_every_field_refuted shows that each is needed.",
    "C44": "Types named default or dyn, and for-all function types that start with default, are left out: the code takes the word for a qualifier.",
    "C46": "RustSpec.v lists what the fragment leaves out: statements that start with the single word crate, default or union, named types called default or dyn, and the like. Operators associate as the code has it (C36, C37).",
    "C22": "The nodes that collect are those with an extent and a whitespace vector except six types; C22_every_node_collects_refuted shows the exception matters.",
}
names = {}
for f in sorted(glob.glob(ROOT + "/rocq/theories/Properties*.v")):
    for m in re.finditer(r"^Theorem (C\d\d)(_\w+)", open(f).read(), re.M):
        names.setdefault(m.group(1), []).append(m.group(1) + m.group(2))
claims = []
for line in open(ROOT + "/properties.jsonl"):
    p = json.loads(line)
    i = p["id"]
    if i not in names and i not in STATUS:
        continue
    status, note = STATUS.get(i, ("proved", NOTES.get(i, "")))
    claims.append({"property": i, "status": status, "theorems": names.get(i, []), "note": note})
json.dump({"claims": claims}, open(ROOT + "/MANIFEST.json", "w"), indent=1)
open(ROOT + "/MANIFEST.json", "a").write("\n")
print(len(claims), "claims")
