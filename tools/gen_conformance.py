"""Generate rocq/theories/Conformance.v: the parser unit tests of /repo (the
`mod test` blocks of src/parser/mod.rs and src/parser/expression.rs) replayed
against the model.  Statements the translation does not understand are skipped
and counted on stderr."""
import re, sys, json
fns = json.load(open('/tmp/fns.json'))
def snake(v):
    return re.sub(r'(?<!^)(?=[A-Z])','_',v).lower()

class Skip(Exception): pass
def rust_string(s):
    s=s.strip()
    m=re.fullmatch(r'r(#+)"(.*)"\1',s,re.S)
    if m: return m.group(2)
    m=re.fullmatch(r'r"(.*)"',s,re.S)
    if m: return m.group(1)
    m=re.fullmatch(r'"(.*)"',s,re.S)
    if not m: raise Skip('string '+s)
    t=m.group(1)
    t=re.sub(r'\\\n\s*','',t)
    t=t.replace(r'\"','"').replace(r'\n','\n').replace(r"\'","'").replace('\\\\','\\')
    return t
def coq_string(s):
    if any(ord(c)>126 for c in s): raise Skip('non ascii')
    return '"'+s.replace('"','""')+'"'
def grammar(f):
    f=f.strip()
    if f in fns: return 'GNT N_'+f
    m=re.fullmatch(r'attributed\((\w+)\)',f)
    if m and m.group(1) in fns:
        return None
    if f=='attributed(item)': return 'item_grammar'
    raise Skip('fn '+f)
def split_args(s):
    # top-level comma split honouring strings
    out=[];d=0;cur='';i=0
    while i<len(s):
        c=s[i]
        mr=re.match(r'r(#+)"',s[i:])
        if mr and not cur[-1:].isalnum():
            j=s.index('"'+mr.group(1),i+mr.end())+1+len(mr.group(1))
            cur+=s[i:j]; i=j; continue
        if c=='"':
            j=i+1
            while s[j]!='"':
                if s[j]=='\\': j+=1
                j+=1
            cur+=s[i:j+1]; i=j+1; continue
        if c in '([{': d+=1
        if c in ')]}': d-=1
        if c==',' and d==0: out.append(cur); cur=''; i+=1; continue
        cur+=c; i+=1
    if cur.strip(): out.append(cur)
    return out
def statements(body):
    out=[];d=0;cur='';i=0
    body=re.sub(r'//[^\n"]*\n','\n',body)
    while i<len(body):
        c=body[i]
        mr=re.match(r'r(#+)"',body[i:])
        if mr and not cur[-1:].isalnum():
            j=body.index('"'+mr.group(1),i+mr.end())+1+len(mr.group(1))
            cur+=body[i:j]; i=j; continue
        if c=='"':
            j=i+1
            while body[j]!='"':
                if body[j]=='\\': j+=1
                j+=1
            cur+=body[i:j+1]; i=j+1; continue
        if c in '([{': d+=1
        if c in ')]}': d-=1
        if c==';' and d==0: out.append(cur.strip()); cur=''; i+=1; continue
        cur+=c; i+=1
    if cur.strip(): out.append(cur.strip())
    return out
def path(env,e):
    """-> (source key, list of ops)"""
    e=e.strip()
    while e.startswith('&'): e=e[1:].strip()
    m=re.match(r'unwrap_as!\(',e)
    if m:
        d=0
        for j in range(m.end()-1,len(e)):
            if e[j]=='(' : d+=1
            if e[j]==')':
                d-=1
                if d==0: break
        a,b=split_args(e[m.end():j])
        src,ops=path(env,a)
        ops=ops+['PV "%s"'%b.strip().split('::')[-1]]
        rest=e[j+1:]
    else:
        m=re.match(r'\w+',e)
        if not m or m.group(0) not in env: raise Skip('var in '+e)
        src,ops=env[m.group(0)]; ops=list(ops); rest=e[m.end():]
    while rest:
        rest=rest.lstrip()
        if not rest: break
        m=re.match(r'\.\s*(unwrap|as_ref|as_mut|extent|clone)\(\)',rest)
        if m:
            if m.group(1)=='unwrap':
                if ops and ops[-1].startswith('PV'): pass   # as_x().unwrap()
                else: ops.append('PS')
            rest=rest[m.end():]; continue
        m=re.match(r'\.\s*expect\("[^"]*"\)',rest)
        if m:
            if not(ops and ops[-1].startswith('PA ')): ops.append('PS')
            rest=rest[m.end():]; continue
        m=re.match(r'\.\s*(as|into)_(\w+)\(\)\.unwrap\(\)',rest)
        if m:
            ops.append('PA "%s"'%m.group(2)); rest=rest[m.end():]; continue
        m=re.match(r'\.\s*(\w+)(?!\w*\()',rest)
        if m and m.group(1).isdigit(): raise Skip('tuple field '+e)
        if m:
            ops.append('PF "%s"'%m.group(1)); rest=rest[m.end():]; continue
        m=re.match(r'\[(\d+)\]',rest)
        if m:
            ops.append('PI %s'%m.group(1)); rest=rest[m.end():]; continue
        raise Skip('path '+e)
    return src,ops
def sub(xs): return '['+'; '.join(xs)+']'
files=['src/parser/mod.rs','src/parser/expression.rs']
tests=0; full=0; skipped=[]
out=[]
for f in files:
    src=open('/repo/'+f).read()
    start=src.index('mod test {',src.index('#[cfg(test)]\nmod test {') )
    t=src[start:]
    base=src[:start].count('\n')
    for m in re.finditer(r'#\[test\]\s*\n    fn (\w+)\(\) \{\n(.*?)\n    \}\n',t,re.S):
        name,body=m.group(1),m.group(2)
        line=base+t[:m.start()].count('\n')+2
        tests+=1
        env={}; checks={}; sources={}; errs={}
        ok=True
        try:
            for st in statements(body):
                st=st.strip()
                if not st or st.startswith('use ') or st.startswith('println'): continue
                mm=re.fullmatch(r'let (\w+) = (?:unwrap_progress\()?(?:qp|parse_full)\((.*)\)\)?',st,re.S)
                if mm:
                    inner=mm.group(2)
                    if st.count('(')!=st.count(')'): pass
                    args=split_args(inner)
                    if len(args)!=2: raise Skip('qp '+st)
                    g=grammar(args[0]); 
                    if g is None: raise Skip('attributed '+st)
                    s=rust_string(args[1].strip().rstrip(')') if args[1].strip().endswith('")')  else args[1])
                    key=mm.group(1)+str(len(sources))
                    sources[key]=(g,coq_string(s)); checks[key]=[]
                    env[mm.group(1)]=(key,[])
                    continue
                st=re.sub(r'^let mut ','let ',st)
                mm=re.fullmatch(r'let \((\w+), (\w+)\) = unwrap_progress_err\((parse_full\(.*\))\)',st,re.S)
                if mm:
                    args=split_args(mm.group(3)[len('parse_full('):-1])
                    key=mm.group(1)+str(len(sources))
                    sources[key]=(grammar(args[0]),coq_string(rust_string(args[1]))); checks[key]=[]
                    errs[mm.group(1)]=key; errs[mm.group(2)]=key; continue
                mm=re.fullmatch(r'let \((\w+), (\w+)\) = qp\((.*)\)',st,re.S)
                if mm:
                    args=split_args(mm.group(3))
                    key=mm.group(1)+str(len(sources))
                    sources[key]=(grammar(args[0]),coq_string(rust_string(args[1]))); checks[key]=[]
                    env[mm.group(1)]=(key,['P1']); env[mm.group(2)]=(key,['P2']); continue
                mm=re.fullmatch(r'let \((\w+), (\w+)\) = unwrap_progress_err\((\w+)\)',st)
                if mm:
                    key=env[mm.group(3)][0]
                    errs[mm.group(1)]=key; errs[mm.group(2)]=key; continue
                mm=re.fullmatch(r'assert_eq!\((\w+), (\d+)\)',st)
                if mm and mm.group(1) in errs:
                    checks[errs[mm.group(1)]].append('CErrAt %s'%mm.group(2)); continue
                mm=re.fullmatch(r'assert!\((\w+)\.contains\(&(?:Error::)?(\w+)\)\)',st)
                if mm and mm.group(1) in errs:
                    checks[errs[mm.group(1)]].append('CErrHas %s'%mm.group(2)); continue
                mm=re.fullmatch(r'let (\w+) = (.*)',st,re.S)
                if mm:
                    env[mm.group(1)]=path(env,mm.group(2)); continue
                mm=re.fullmatch(r'assert_extent!\((.*)\)',st,re.S)
                if mm:
                    a,b=split_args(mm.group(1))
                    k,ops=path(env,a)
                    b=re.sub(r'\s','',b)
                    q=re.fullmatch(r'\((\d+),(\d+)\)',b)
                    if not q: raise Skip('extent '+st)
                    checks[k].append('CExt %s %s'%(sub(ops),'(%s, %s)'%q.groups())); continue
                mm=re.fullmatch(r'assert_eq!\((.*)\)',st,re.S)
                if mm:
                    a,b=split_args(mm.group(1))
                    for a,b in ((a,b),(b,a)):
                        a=a.strip(); b=b.strip()
                        q=re.fullmatch(r'\((\d+), (\d+)\)',b)
                        if q:
                            k,ops=path(env,a)
                            checks[k].append('CExt %s (%s, %s)'%(sub(ops),q.group(1),q.group(2))); break
                        if a.endswith('.len()') and b.isdigit():
                            k,ops=path(env,a[:-6])
                            checks[k].append('CLen %s %s'%(sub(ops),b)); break
                    else: raise Skip('eq '+st)
                    continue
                mm=re.fullmatch(r'assert!\((.*)\)',st,re.S)
                if mm:
                    a=mm.group(1).strip()
                    neg=a.startswith('!')
                    if neg: a=a[1:]
                    q=re.fullmatch(r'(.*)\.(is_\w+)\(\)',a,re.S)
                    if q:
                        k,ops=path(env,q.group(1))
                        c='CIs %s "%s" %s'%(sub(ops),q.group(2)[3:],'false' if neg else 'true')
                        checks[k].append(c); continue
                raise Skip('stmt '+st)
        except Skip as e:
            ok=False; skipped.append((name,str(e)))
        except Exception as e:
            ok=False; skipped.append((name,'!'+repr(e)))
        if ok: full+=1
        for k,(g,s) in sources.items():
            cs=checks[k] or ['CParses']
            out.append(f'    (* {f}:{line} {name} *)\n    T ({g}) {s}\n      {sub(cs)}')
print('''(** The unit tests of the parser replayed on the model; generated by
    tools/gen_conformance.py (no manual edits).  These are tests of the model's
    faithfulness, not properties. *)

From Coq Require Import String List Bool Arith Ascii.
From Verif Require Import Base Peresil Token Tokenizer.
From Verif Require Import Schema Value Nt Grammar Table Apportion Lib.
Import ListNotations.
Local Open Scope string_scope.
Local Open Scope nat_scope.

Scheme Boolean Equality for perror.

(** Access paths into a value: field, enum variant, [as_x().unwrap()], element,
    [unwrap()] of an option, component of a pair.  [Attributed] derefs to its value, src/ast.rs:1311-1314. *)
Inductive pop : Type := PF (f : string) | PV (v : string) | PA (v : string) | PI (i : nat) | PS | P1 | P2.

Definition is_upper (c : ascii) : bool :=
  (65 <=? nat_of_ascii c) && (nat_of_ascii c <=? 90).
Definition lower (c : ascii) : ascii :=
  if is_upper c then ascii_of_nat (nat_of_ascii c + 32) else c.

(** fuzzy-pickles-derive/src/lib.rs:34-47. *)
Fixpoint snake (s : string) : string :=
  match s with
  | EmptyString => EmptyString
  | String c r =>
      if is_upper c then String "_" (String (lower c) (snake r)) else String c (snake r)
  end.

Definition deref (v : val) : val :=
  match get_field "value" v with
  | Some x => match v with VNode k _ => if prefix "Attributed<" k then x else v | _ => v end
  | None => v
  end.

Definition step (o : pop) (v : val) : option val :=
  match o with
  | PF f => match get_field f v with Some x => Some x | None => get_field f (deref v) end
  | PV k => match v with
            | VVar _ k' p => if String.eqb k k' then Some p else None
            | VSome x => if String.eqb k "Some" then Some x else None
            | _ => None
            end
  | PA k => match deref v with
            | VVar _ k' p => if String.eqb ("_" ++ k) (snake k') then Some p else None
            | _ => None
            end
  | PI i => match v with VList l => nth_error l i | _ => None end
  | PS => match v with VSome x => Some x | _ => None end
  | P1 => match v with VPair x _ => Some x | _ => None end
  | P2 => match v with VPair _ y => Some y | _ => None end
  end.

Fixpoint walk (p : list pop) (v : val) : option val :=
  match p with
  | [] => Some v
  | o :: p' => match step o v with Some x => walk p' x | None => None end
  end.

Inductive check : Type :=
| CParses
| CExt (p : list pop) (e : extent)
| CLen (p : list pop) (n : nat)
| CIs (p : list pop) (what : string) (expected : bool)
| CErrAt (n : nat)
| CErrHas (e : perror).

(** src/parser/test_utils.rs [parse_full]. *)
Definition parse_full (x : g) (s : string) : progress point val (list perror) :=
  match tokenize ascii_xid (str s) with
  | TokOk ts =>
      let (_, toks) := partition_tokens ts [] in
      let (pm, r) := run table toks (parse_fuel (length toks)) x []
                       (new_master pt_zero Unambiguous) pt_zero in
      snd (finish pt_lt pt_zero pm r)
  | _ => Abort Panicked
  end.

Definition same_ext (a b : extent) : bool := (fst a =? fst b) && (snd a =? snd b).

Definition is_what (what : string) (v : val) : bool :=
  if String.eqb what "some" then match v with VSome _ => true | _ => false end
  else if String.eqb what "none" then match v with VNone => true | _ => false end
  else if String.eqb what "empty" then match v with VList [] => true | _ => false end
  else match deref v with
       | VVar _ k _ => String.eqb ("_" ++ what) (snake k)
       | _ => false
       end.

Definition check_one (r : progress point val (list perror)) (c : check) : bool :=
  match c, r with
  | CParses, Success _ _ => true
  | CExt p e, Success _ v =>
      match walk p v with
      | Some x => match extent_of x with Some e' => same_ext e e' | None => false end
      | None => false
      end
  | CLen p n, Success _ v => match walk p v with Some (VList l) => length l =? n | _ => false end
  | CIs p what b, Success _ v =>
      match walk p v with Some x => Bool.eqb (is_what what x) b | None => false end
  | CErrAt n, Failure p _ => off p =? n
  | CErrHas e, Failure _ es => existsb (perror_beq e) es
  | _, _ => false
  end.

Inductive test : Type := T (x : g) (s : string) (cs : list check).

Definition passes (t : test) : bool :=
  match t with T x s cs => let r := parse_full x s in forallb (check_one r) cs end.
''')
print('Definition tests : list test :=\n  [\n'+';\n'.join(out)+'].\n')
print('Example unit_tests_pass : forallb passes tests = true.\nProof. vm_compute. reflexivity. Qed.')
print(f'{tests} tests, {full} fully translated, {len(skipped)} skipped in part',file=sys.stderr)
for s in skipped: print(s,file=sys.stderr)
