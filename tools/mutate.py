#!/usr/bin/env python3
"""Mutation testing of the theorems.  usage: mutate.py mutants.py [-n]   (mutants.py defines M = [(file, old, new, definition, edit, claim)])
Works in a scratch copy (/tmp/mut), rebuilds with make -k, maps the first failing lemma of each file to the C.. theorems
that use it (textual closure), appends one line per mutant to seeded/LOG.jsonl."""
import sys, os, re, subprocess, json, shutil, glob
V='/verif'; W='/tmp/mut'
ns={}; exec(open(sys.argv[1]).read(), ns)
M=ns['M']
B='/tmp/mutbase'
def sync():
    for w in (B,W):
        shutil.rmtree(w,ignore_errors=True); subprocess.run(['cp','-a',V+'/rocq',w],check=True)
sync()
files=[l.strip() for l in open(W+'/_CoqProject') if l.strip().endswith('.v')]
names={}   # lemma -> (file, body)
order=[]
for f in files:
    t=open(W+'/'+f).read()
    parts=[(m.start(),m.group(2)) for m in re.finditer(r'^\s*(Lemma|Theorem|Corollary|Example|Fact|Remark|Definition|Fixpoint)\s+([\w\']+)',t,re.M)]
    for i,(p,n) in enumerate(parts):
        e=parts[i+1][0] if i+1<len(parts) else len(t)
        names.setdefault(n,[]).append((f,t[p:e]))
REQ={}
for f in files:
    t=open(W+'/'+f).read(); b=os.path.basename(f)[:-2]
    REQ[b]=set(w for m in re.finditer(r'From Verif Require (?:Import|Export)\s+([^.]*)\.',t) for w in m.group(1).split())
def importers(f):
    s={f}; ch=True
    while ch:
        ch=False
        for b,r in REQ.items():
            if b not in s and r&s: s.add(b); ch=True
    return s
def dependents(seed,f):
    """(file,lemma) pairs reachable from the failing lemmas, within files importing f"""
    I=importers(f); imp={b:importers(b) for b in I}
    toks=[((os.path.basename(ff)[:-2],n),set(re.findall(r"[\w']+",b))-{n}) for n,bs in names.items() for ff,b in bs if os.path.basename(ff)[:-2] in I]
    seen=set(seed); ch=True
    while ch:
        ch=False
        for (k,tk) in toks:
            if k not in seen and any(n in tk and k[0] in imp.get(b,()) for b,n in seen):
                seen.add(k); ch=True
    return sorted(n for _,n in seen if re.match(r'C\d\d_',n) and not n.endswith('_case'))
if '--relog' in sys.argv:   # recompute theorems_failed of the existing log lines
    L=[json.loads(l) for l in open(V+'/seeded/LOG.jsonl')]
    for e in L:
        f=os.path.basename(e['file'])[:-2]
        if e.get('first_failing_lemmas'): e['theorems_failed']=dependents([tuple(x.split('.')) for x in e['first_failing_lemmas']],f)
    open(V+'/seeded/LOG.jsonl','w').write(''.join(json.dumps(e,ensure_ascii=False)+'\n' for e in L)); sys.exit()
subprocess.run('coq_makefile -f _CoqProject -o Makefile',shell=True,cwd=W,check=True,capture_output=True)
log=open(V+'/seeded/LOG.jsonl','a')
for (f,old,new,d,edit,claim) in M:
    p=f'{W}/theories/{f}.v'; src=open(p).read()
    if src.count(old)<1: print('NOT FOUND',f,old); continue
    k=src.replace(old,new,1)
    st=os.stat(p)
    open(p,'w').write(k)
    r=subprocess.run('timeout 1500 make -k -j3',shell=True,cwd=W,capture_output=True,text=True)
    out=r.stdout+r.stderr
    failed=[]
    direct=False
    for m in re.finditer(r'File "\./theories/(\w+)\.v", line (\d+), characters [\d-]+:\s*\n(Error[^\n]*)',out):
        fn,ln=m.group(1),int(m.group(2))
        lines=open(f'{W}/theories/{fn}.v').read().split('\n')[:ln]
        nm=None
        for l in reversed(lines):
            mm=re.match(r'\s*(Lemma|Theorem|Corollary|Example|Fact|Remark|Definition|Fixpoint)\s+([\w\']+)',l)
            if mm: nm=mm.group(2); break
        failed.append((fn,nm,m.group(3)[:80]))
    seeds=[(a,n) for a,n,_ in failed if n]
    th=dependents(seeds,f) if seeds else []
    if any(fn.endswith('_Model') for fn,_,_ in failed): print('!! model does not compile:',failed)
    print(('KILLED ' if failed else 'SURVIVED'),f,d,'|',edit,'|',failed,'|',len(th),th[:6],flush=True)
    if '-n' not in sys.argv:
        log.write(json.dumps({"definition":d,"file":f"rocq/theories/{f}.v","edit":edit,"claim":claim,"first_failing_lemmas":[f"{a}.{b}" for a,b,_ in failed],
          "theorems_failed":th,"theorems_tightened":[]},ensure_ascii=False)+'\n'); log.flush()
    # restore source and compiled files
    open(p,'w').write(src)
    subprocess.run(f'cp -a {B}/theories/. {W}/theories/',shell=True)
