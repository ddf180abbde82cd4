#!/usr/bin/env python3
"""Print Assumptions for every theorem of MANIFEST.json, grouped; run from anywhere after building."""
import json, subprocess, glob, os, collections, re
root = os.path.dirname(os.path.dirname(os.path.abspath(__file__)))
thms = [t for c in json.load(open(root + '/MANIFEST.json'))['claims'] for t in c['theorems']]
mods = [os.path.basename(f)[:-2] for f in sorted(glob.glob(root + '/rocq/theories/P_*.v'))]
src = ''.join('From Verif Require %s.\n' % m for m in mods)
where = {}
for m in mods:
    for x in re.findall(r'^(?:Theorem|Corollary)\s+(\w+)', open(root + '/rocq/theories/%s.v' % m).read(), re.M):
        where[x] = m
for t in thms:
    src += 'Goal True. idtac "@@ %s". Abort.\nPrint Assumptions %s.%s.\n' % (t, where[t], t)
os.makedirs('/tmp/assum', exist_ok=True)
open('/tmp/assum/A.v', 'w').write(src)
out = subprocess.run(['coqc', '-Q', root + '/rocq/theories', 'Verif', 'A.v'], cwd='/tmp/assum', capture_output=True, text=True)
assert out.returncode == 0, out.stderr
groups = collections.OrderedDict()
for blk in out.stdout.split('@@ ')[1:]:
    name, rest = blk.split('\n', 1)
    ax = tuple(sorted(re.findall(r'^(\S+) :', rest, re.M))) or tuple(re.findall(r'^(\S+)$', rest, re.M))
    ax = tuple(sorted(set(re.findall(r'^([A-Za-z_][\w.]*)\s*:?', rest, re.M)) - {'Axioms', 'Closed'}))
    groups.setdefault(ax, []).append(name)
for ax, names in sorted(groups.items(), key=lambda g: len(g[1])):
    print('* ' + (', '.join('`%s`' % a for a in ax) or 'no axioms') + ' (%d theorems)' % len(names) + (': ' + ', '.join(names) if len(names) < 60 else ''))
