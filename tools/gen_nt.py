"""Generate rocq/theories/Nt.v: the parser's error enum and the names of its functions."""
import re
src = open('/repo/src/parser/mod.rs').read().split('\n')
print('''(** Names used by the parser model; generated by tools/gen_nt.py (no manual edits). *)

From Coq Require Import String List.
Import ListNotations.
Local Open Scope string_scope.

(** src/parser/mod.rs:177-288 [enum Error]. *)
Inductive perror : Type :=''')
errs = []
for l in src[177:287]:
    m = re.match(r'    (\w+),', l)
    if m: errs.append(m.group(1))
print('\n'.join('| ' + e for e in errs) + '.\n')
import json
fns = json.load(open('/tmp/fns.json'))
print('''(** The parser functions of src/parser/mod.rs and src/parser/expression.rs that
    are not token shims or combinators. *)
Inductive nt : Type :=''')
print('\n'.join(f'| N_{f}' for f in fns) + '.\n')
print('Definition all_nts : list nt :=\n  [' + '; '.join(f'N_{f}' for f in fns) + '].\n')
print('Definition nt_index (n : nt) : nat :=\n  match n with')
for i,f in enumerate(fns): print(f'  | N_{f} => {i}')
print('  end.\n')
print('''Lemma all_nts_complete n : In n all_nts.
Proof. apply nth_error_In with (n := nt_index n). destruct n; reflexivity. Qed.

Lemma all_nts_nth n : nth_error all_nts (nt_index n) = Some n.
Proof. destruct n; reflexivity. Qed.
''')
