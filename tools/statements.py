import re,sys,glob
for f in sys.argv[1:]:
    t=open(f).read()
    for m in re.finditer(r'((?:\(\*\*(?:(?!\*\)).)*\*\)\s*)?)^(Theorem|Corollary) (C\d\d\w*)(.*?)\nProof',t,re.S|re.M):
        print(m.group(2),m.group(3)+m.group(4)); print()
