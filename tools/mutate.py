"""Seeded-bug runs: apply one edit to a scratch copy of the model, rebuild, log.

usage: mutate.py SPEC.json   (list of {file, definition, old, new, edit, claim, targets})
With targets, only those files and what they need are rebuilt: the question is then
whether the theorems of the claim itself notice.
Each result is appended to /verif/seeded/LOG.jsonl.
"""
import json, os, re, shutil, subprocess, sys
SRC, WORK, LOG = os.environ.get("MODEL", "/verif/rocq"), "/tmp/mut", "/verif/seeded/LOG.jsonl"
def sh(c, t=3000):
    return subprocess.run(c, shell=True, capture_output=True, text=True, timeout=t)
def enclosing(path, line):
    name = "?"
    for i, l in enumerate(open(path), 1):
        if i > line: break
        m = re.match(r"\s*(?:Lemma|Theorem|Example|Corollary|Definition|Fixpoint|Instance) (\w+)", l)
        if m: name = m.group(1)
    return name
for m in json.load(open(sys.argv[1])):
    sh(f"rm -rf {WORK}; cp -rp {SRC} {WORK}")
    p = f"{WORK}/theories/{m['file']}"
    s = open(p).read()
    # an edit of the grammar is made in the rule it names
    at = s.find("\n  | " + m["definition"] + " =>") if m["file"] == "Table.v" else 0
    at = max(at, 0)
    if s.find(m["old"], at) < 0:
        print("NOT FOUND", m["definition"]); continue
    s = s[:at] + s[at:].replace(m["old"], m["new"], 1)
    open(p, "w").write(s)
    if m.get("fast"):
        # stop at the first failure; literal tests do not count
        sh(f"sed -i /Conformance/d {WORK}/_CoqProject")
    r = sh(f"cd {WORK} && coq_makefile -f _CoqProject -o Makefile >/dev/null && (ulimit -v 9000000; timeout 2400 make {'' if m.get('fast') else '-k'} -j3 {' '.join('theories/%s.vo' % t for t in m.get('targets', []))} 2>&1)")
    fails = []
    for f, l in re.findall(r'File "\./theories/(\w+\.v)", line (\d+), characters [^\n]*\nError', r.stdout):
        fails.append(f"{f}:{enclosing(WORK+'/theories/'+f, int(l))}")
    fails = [f for i, f in enumerate(fails) if f not in fails[:i]]
    if not fails and r.returncode != 0:
        fails = ["build error: " + r.stdout[-300:]]
    rec = {"definition": f"{m['file']}:{m['definition']}", "edit": m["edit"], "claim": m["claim"],
           "failed": fails, "tightened": m.get("tightened", [])}
    if m.get("note"): rec["note"] = m["note"]
    open(LOG, "a").write(json.dumps(rec) + "\n")
    print("FAILS" if fails else "SURVIVES", m["definition"], m["edit"], fails)
    sys.stdout.flush()
