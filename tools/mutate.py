#!/usr/bin/env python3
"""Seeded-bug harness.  usage: mutate.py MUTANTS.py [id ...]
Each mutant: dict(id, file, definition, old, new, edit, claim, props=[...]).  A scratch copy of rocq/ (with its compiled files) is kept
in /tmp/mut/rocq; every mutant is applied to it, rebuilt with make -k, and undone.  The names of the proofs that fail, and of the
theorems C.. that use them (transitively, by name), are written to /tmp/mut/results.jsonl."""
import json, os, re, subprocess, sys, time, glob, importlib.util
SRC='/verif/rocq'; W='/tmp/mut/rocq'; OUT='/tmp/mut/results.jsonl'
HEAD=re.compile(r'^\s*(?:#\[[^\]]*\]\s*)?(?:Local |Global |Program )?(Theorem|Lemma|Corollary|Example|Fact|Remark|Definition|Fixpoint|Instance|Inductive|Record)\s+([A-Za-z_0-9\']+)',re.M)
def sh(c,**k): return subprocess.run(c,shell=True,stdout=subprocess.PIPE,stderr=subprocess.STDOUT,text=True,**k)
def graph():
    deps={}; where={}
    for f in sorted(glob.glob(SRC+'/theories/*.v')):
        t=open(f).read(); ms=list(HEAD.finditer(t))
        for i,m in enumerate(ms):
            body=t[m.start():(ms[i+1].start() if i+1<len(ms) else len(t))]
            deps.setdefault(m.group(2),set()).update(re.findall(r"[A-Za-z_][A-Za-z_0-9']*",body))
    return deps
def dependents(deps,failed):
    rev={}
    for a,bs in deps.items():
        for b in bs:
            if b in deps and b!=a: rev.setdefault(b,set()).add(a)
    seen=set(failed); todo=list(failed)
    while todo:
        x=todo.pop()
        for y in rev.get(x,()):
            if y not in seen: seen.add(y); todo.append(y)
    return seen
def main():
    spec=importlib.util.spec_from_file_location('mu',sys.argv[1]); mu=importlib.util.module_from_spec(spec); spec.loader.exec_module(mu)
    want=set(sys.argv[2:])
    os.makedirs('/tmp/mut',exist_ok=True)
    sh(f'rm -rf {W} && cp -a {SRC} {W}') 
    r=sh(f'cd {W} && coq_makefile -f _CoqProject -o Makefile && make -j4 2>&1 | tail -3'); print('base build',r.stdout[-200:])
    sh(f'rm -rf /tmp/mut/base && cp -a {W} /tmp/mut/base')
    deps=graph()
    for m in mu.MUTANTS:
        if want and m['id'] not in want: continue
        p=f"{W}/theories/{m['file']}.v"
        t=open(p).read(); n=t.count(m['old'])
        which=m.get('nth')
        if n==0 or (n>1 and which is None): print(m['id'],'BAD PATTERN',n); continue
        if which is None: t2=t.replace(m['old'],m['new'])
        else:
            parts=t.split(m['old']); t2=m['old'].join(parts[:which+1])+m['new']+m['old'].join(parts[which+1:])
        t0=time.time(); open(p,'w').write(t2)
        r=sh(f'cd {W} && timeout 1500 make {"" if m["file"] in ("M_fast_ffts","M_shift") else "-k"} -j4 2>&1')
        fails=[]
        for f,l,err in re.findall(r'File "\./(theories/\w+\.v)", line (\d+), characters [\d-]+:\n(Error[^\n]*\n?[^\n]*)',r.stdout):
            txt=open(f'{W}/{f}').read().split('\n'); pre='\n'.join(txt[:int(l)])
            ms=list(HEAD.finditer(pre)); fails.append((f.split('/')[1][:-2],ms[-1].group(2) if ms else '?',int(l),err[:160]))
        names={x[1] for x in fails}
        hit=sorted(x for x in dependents(deps,names) if re.match(r'C\d+_',x) and not x.endswith('nonvacuous'))
        ok=all(any(h.startswith(c+'_') for h in hit) for c in m.get('props',[]))
        rec=dict(id=m['id'],survived=not fails,props_hit=ok,failed=fails,hit=hit,t=round(time.time()-t0))
        open(OUT,'a').write(json.dumps(rec)+'\n')
        print(m['id'],'SURVIVED' if not fails else 'killed', '' if ok else 'PROPS-NOT-HIT', [f'{x[0]}:{x[1]}' for x in fails], 'props', sorted({h.split('_')[0] for h in hit}), rec['t'],'s',flush=True)
        sh(f'rm -rf {W} && cp -a /tmp/mut/base {W}')
main()
