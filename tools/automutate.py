#!/usr/bin/env python3
"""Random mutants of the model.  usage: automutate.py SEED COUNT [FILE...]
Draws COUNT mutants (one token changed in the code, outside comments, of a model file M_*.v), rebuilds a scratch copy in
/tmp/mut/rocq (make stops at the first failing proof) and reports.  Mutants that do not type-check are skipped.  Survivors are
the interesting ones: either the edit does not change the meaning, or no theorem notices it."""
import json, os, re, subprocess, sys, time, glob, random
sys.path.insert(0,os.path.dirname(__file__))
SRC='/verif/rocq'; W='/tmp/mut/rocq'; OUT='/tmp/mut/auto.jsonl'
def sh(c,**k): return subprocess.run(c,shell=True,stdout=subprocess.PIPE,stderr=subprocess.STDOUT,text=True,**k)
EXN=['ValueError','TypeError','IndexError','ZeroDivisionError']
OPS=[(r'(?<![\w.])0(?![\w.])',['1']),(r'(?<![\w.])1(?![\w.])',['0','2']),(r'(?<![\w.])2(?![\w.])',['3','1']),
     (r'\btrue\b',['false']),(r'\bfalse\b',['true']),(r'<=\?',['<?']),(r'<\?',['<=?']),(r'=\?',['<=?']),
     (r' \+ ',[' - ']),(r' - ',[' + ']),(r' \* ',[' + ']),(r' / ',[' * ']),(r'\(- ',['(']),
     (r'\bfst\b',['snd']),(r'\bsnd\b',['fst']),(r'\bny\b',['nx']),(r'\bnx\b',['ny']),(r'&&',['||']),(r'\|\|',['&&']),(r'\bnegb ',['']),
     (r'\bRlt_dec\b',['Rle_dec']),(r'\bRle_dec\b',['Rlt_dec']),(r'\bmax\b',['min']),(r'\bmin\b',['max']),(r'\bRmax\b',['Rmin']),(r'\bRmin\b',['Rmax']),
     (r'\bCconj ',['']),(r'\bRe\b',['Im']),(r'\bcos\b',['sin']),(r'\bnan0 ',['']),(r'\bfloorR\b',['ceilR','roundR']),(r'\bceilR\b',['floorR']),(r'\broundR\b',['floorR']),(r'\btruncR\b',['floorR','roundR']),
     (r'\bRaise (\w+)',['Raise ValueError','Raise TypeError','Raise IndexError']),(r'\bim1\b',['im2']),(r'\bim2\b',['im1']),(r'\busfac\b',['1']),
     (r'\bargmin2\b',['argmax2']),(r'\bargmax2\b',['argmin2']),(r'\bsumNC\b',['sumNC']),(r'\bfftn\b',['ifftn']),(r'\bifftn\b',['fftn']),(r'\bfft2\b',['ifft2']),(r'\bifft2\b',['fft2']),(r'\bsome\b',[])]
def code_mask(t):
    m=[True]*len(t); d=0; i=0
    while i<len(t):
        if t.startswith('(*',i): d+=1; m[i]=m[i+1]=False; i+=2; continue
        if t.startswith('*)',i) and d: d-=1; m[i]=m[i+1]=False; i+=2; continue
        if d: m[i]=False
        i+=1
    return m
DEF=re.compile(r'^(Definition|Fixpoint)\s+(\w+)',re.M)
def candidates(files):
    out=[]
    for f in files:
        t=open(f).read(); mask=code_mask(t); ds=[(m.start(),m.group(2)) for m in DEF.finditer(t)]
        ind=[(m.start(),m.group(0)) for m in re.finditer(r'^(Inductive|Record|Lemma|Theorem|From|Import|Open|Proof|Notation|Definition|Fixpoint|Section|End|Arguments|Local)\b',t,re.M)]
        for pat,reps in OPS:
            for m in re.finditer(pat,t):
                if not mask[m.start()]: continue
                prev=[x for x in ind if x[0]<=m.start()]
                if not prev or prev[-1][1] not in('Definition','Fixpoint'): continue
                name=[x[1] for x in ds if x[0]<=m.start()][-1]
                if 'Unmodelled' in t[m.start():m.end()+12] and 'Raise' in m.group(0): continue
                for r in reps:
                    if r!=m.group(0): out.append((os.path.basename(f)[:-2],name,m.start(),m.end(),m.group(0),r))
    return out
def main():
    seed,count=int(sys.argv[1]),int(sys.argv[2]); rnd=random.Random(seed)
    files=[f'{SRC}/theories/{x}.v' for x in sys.argv[3:]] or sorted(glob.glob(SRC+'/theories/M_*.v'))
    os.makedirs('/tmp/mut',exist_ok=True)
    sh(f'rm -rf {W} && cp -a {SRC} {W}')
    r=sh(f'cd {W} && coq_makefile -f _CoqProject -o Makefile && make -j4 2>&1 | tail -3'); print('base build',r.stdout[-200:],flush=True)
    sh(f'rm -rf /tmp/mut/base && cp -a {W} /tmp/mut/base')
    bydef={}
    for c in candidates(files): bydef.setdefault(c[:2],[]).append(c)
    done={tuple(json.loads(l)['key']) for l in open(OUT)} if os.path.exists(OUT) else set()
    keys=sorted(bydef); n=0
    while n<count:
        k=rnd.choice(keys); c=rnd.choice(bydef[k]); f,name,a,b,old,new=c
        p=f'{W}/theories/{f}.v'; t=open(p).read()
        line=t.count('\n',0,a)+1
        ctx=t[max(0,a-60):b+50].replace('\n',' ')
        key=(f,name,t[max(0,a-40):a],old,new)
        if key in done: continue
        done.add(key)
        open(p,'w').write(t[:a]+new+t[b:]); t0=time.time()
        r=sh(f'cd {W} && coqc -Q theories Verif theories/{f}.v 2>&1')
        if r.returncode!=0: sh(f'cp -a /tmp/mut/base/theories/{f}.* {W}/theories/'); continue
        n+=1
        r=sh(f'cd {W} && nice timeout 1500 make -j4 2>&1')
        fails=re.findall(r'File "\./theories/(\w+)\.v", line (\d+)',r.stdout)
        rec=dict(key=key,file=f,definition=name,line=line,old=old,new=new,ctx=ctx,survived=not fails and r.returncode==0,failed=fails,t=round(time.time()-t0))
        open(OUT,'a').write(json.dumps(rec)+'\n')
        print(n,'SURVIVED' if rec['survived'] else 'killed',f,name,line,repr(old),'->',repr(new),fails,rec['t'],'s',flush=True)
        if rec['survived']: print('     ',ctx,flush=True)
        sh(f'rm -rf {W} && cp -a /tmp/mut/base {W}')
main()
