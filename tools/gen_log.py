#!/usr/bin/env python3
"""Joins the mutant lists (seeded/lists/*.py) with the harness' results (seeded/results.jsonl, appended from /tmp/mut/results.jsonl) and
seeded/tightened.json into seeded/LOG.jsonl: one line per attempt, in the order the attempts were made."""
import json,glob,importlib.util,os
R='/verif/seeded/'
muts={}
for f in sorted(glob.glob(R+'lists/*.py')):
    s=importlib.util.spec_from_file_location('mu',f); m=importlib.util.module_from_spec(s); s.loader.exec_module(m)
    for x in m.MUTANTS: muts[x['id']]=x
old=open(R+'results.jsonl').read().splitlines() if os.path.exists(R+'results.jsonl') else []
new=open('/tmp/mut/results.jsonl').read().splitlines() if os.path.exists('/tmp/mut/results.jsonl') else []
seen=set(old)
for l in new:
    if l not in seen: old.append(l); seen.add(l)
open(R+'results.jsonl','w').write('\n'.join(old)+'\n')
tight=json.load(open(R+'tightened.json'))
nth={}
with open(R+'LOG.jsonl','w') as o:
    for l in old:
        r=json.loads(l)
        if r['id'] not in muts: continue
        m=muts[r['id']]; k=nth[r['id']]=nth.get(r['id'],0)+1
        t=tight.get(r['id'],{}) if r['survived'] or not r['props_hit'] else {}
        o.write(json.dumps(dict(id=r['id'],attempt=k,definition=m['file']+'.'+m['definition'],edit=m['edit'],claim_broken=m['claim'],properties=m.get('props',[]),
          outcome='survived' if r['survived'] else 'killed',
          proofs_failed=sorted({x[0]+'.'+x[1] for x in r['failed']}),
          theorems_failed=r['hit'] if len(r['hit'])<=12 else r['hit'][:12]+['... %d in all'%len(r['hit'])],
          theorems_tightened=t.get('tightened',[]),note=t.get('note','')))+'\n')

# random one-token edits (tools/automutate.py): /tmp/mut/auto.jsonl -> seeded/auto.jsonl, notes on survivors in seeded/auto_notes.json
import re,subprocess
A=R+'auto.jsonl'
old=open(A).read().splitlines() if os.path.exists(A) else []
new=open('/tmp/mut/auto.jsonl').read().splitlines() if os.path.exists('/tmp/mut/auto.jsonl') else []
names={}
def proof_at(f,line):
    t=open(f'/verif/rocq/theories/{f}.v').read().splitlines()[:line]
    for x in reversed(t):
        m=re.match(r'\s*(?:Theorem|Lemma|Corollary|Example|Definition|Fixpoint)\s+(\w+)',x)
        if m: return m.group(1)
    return '?'
seen={tuple(json.loads(l)['key']) for l in old}
for l in new:
    r=json.loads(l)
    if tuple(r['key']) in seen: continue
    seen.add(tuple(r['key'])); r['proofs']=sorted({f'{f}.{proof_at(f,int(n))}' for f,n in r['failed']}); old.append(json.dumps(r))
if old: open(A,'w').write('\n'.join(old)+'\n')
notes=json.load(open(R+'auto_notes.json')) if os.path.exists(R+'auto_notes.json') else {}
with open(R+'LOG.jsonl','a') as o:
    for k,l in enumerate(old,1):
        r=json.loads(l); i='a%03d'%k
        if r['old']=='Raise Unmodelled': continue
        n=notes.get(i,{})
        o.write(json.dumps(dict(id=i,attempt=1,definition=r['file']+'.'+r['definition'],edit=f"random edit: {r['old']!r} -> {r['new']!r} in ...{r['ctx'].strip()}...",
          claim_broken=n.get('claim','whatever theorem fails (random edit; the build stops at the first failing proof)' if not r['survived'] else 'none'),properties=n.get('props',[]),
          outcome='survived' if r['survived'] else 'killed',proofs_failed=r.get('proofs',[]),theorems_failed=[x.split('.')[1] for x in r.get('proofs',[]) if re.match(r'C\d',x.split('.')[1])],
          theorems_tightened=n.get('tightened',[]),note=n.get('note','')))+'\n')
