"""Generate rocq/theories/Schema.v from the text of /repo/src/ast.rs.

The output is committed; this script only documents how it was produced."""
import re
src = open('/repo/src/ast.rs').read().split('\n')
out = []
i = 0
structs, enums = [], []
def ty(t):
    t = t.strip()
    m = re.match(r'(Option|Vec|Box)<(.*)>$', t)
    if m:
        inner = ty(m.group(2))
        return {'Option': f'(TOpt {inner})', 'Vec': f'(TList {inner})', 'Box': inner}[m.group(1)]
    if t == 'Extent': return 'TExt'
    if t == 'bool': return 'TBool'
    return f'(TN "{t}")'
visit = set()
while i < len(src):
    l = src[i]
    m = re.match(r'pub struct (\w+)(<T>)? \{', l)
    m2 = re.match(r'pub enum (\w+) \{', l)
    if m or m2:
        start = i + 1
        name = (m or m2).group(1)
        # derives just above
        j = i - 1; derives = ''
        while src[j].startswith('#[') or src[j].startswith('//'):
            derives += src[j]; j -= 1
        fields = []; ign = False
        i += 1
        while src[i] != '}':
            s = src[i].strip()
            if s.startswith('//') or not s: pass
            elif s.startswith('#['):
                if 'visit(ignore)' in s: ign = True
                s2 = re.sub(r'^#\[[^\]]*\]\s*', '', s)
                if s2:
                    raise Exception(s)
            elif m:
                fm = re.match(r'(?:pub(?:\(crate\))? )?(\w+): ([^,]*),?(?:\s*//.*)?$', s)
                fields.append((fm.group(1), fm.group(2), ign)); ign = False
            else:
                vm = re.match(r'(\w+)(?:\((.*)\))?,?(?:\s*//.*)?$', s)
                fields.append((vm.group(1), vm.group(2)))
            i += 1
        end = i + 1
        if m: structs.append((name, bool(m.group(2)), fields, start, end, derives))
        else: enums.append((name, fields, start, end, derives))
    i += 1
# Attributed instances: visit_attributed! lines plus the parser-internal OperatorPrefix
att = []
for k, l in enumerate(src, 1):
    m = re.match(r'visit_attributed!\((\w+),', l)
    if m: att.append((m.group(1), k))
print('''(** The AST types: src/ast.rs, generated by tools/gen_schema.py (no manual edits).

    A struct is its list of fields in declaration order; the flag says whether
    the derived [Visit] implementation visits the field (no [#[visit(ignore)]]).
    An enum is its list of variants with the type of their payload, if any.
    [Box<T>] is [T]. *)

From Coq Require Import String List.
Import ListNotations.
Local Open Scope string_scope.

(** Types of values handled by the parser. *)
Inductive ty : Type :=
| TExt | TBool | TNat | TPoint | TNumber | TUnit
| TOpt (t : ty) | TList (t : ty) | TPair (a b : ty)
| TN (name : string).

Definition structs : list (string * list (string * ty * bool)) :=
  [''')
rows = []
for name, gen, fields, s, e, d in structs:
    insts = [(name, None, s, e)] if not gen else [(f'Attributed<{a}>', a, s, e) for a, k in att]
    for n, a, s, e in insts:
        fs = '; '.join(f'("{f}", {ty(t) if t != "T" else ty(a)}, {"false" if ig else "true"})' for f, t, ig in fields)
        if a: fs = fs.replace('"whitespace", (TList (TN "Whitespace")), true', '"whitespace", (TList (TN "Whitespace")), false')
        if a: c = f'src/ast.rs:{s}-{e}, {dict(att)[a]} (the hand-written Visit, 1315-1339, skips the whitespace)'
        else: c = f'src/ast.rs:{s}-{e}' + ('' if 'Visit' in d else ' (not Visit)')
        rows.append(f'   (* {c} *)\n   ("{n}", [{fs}])')
print(';\n'.join(rows) + '].\n')
print('Definition enums : list (string * list (string * option ty)) :=\n  [')
rows = []
for name, fields, s, e, d in enums:
    vs = '; '.join(f'("{v}", {"Some " + ty(t) if t else "None"})' for v, t in fields)
    c = f'src/ast.rs:{s}-{e}' + ('' if 'Visit' in d else ' (not Visit)')
    rows.append(f'   (* {c} *)\n   ("{name}", [{vs}])')
print(';\n'.join(rows) + '].')
