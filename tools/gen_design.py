#!/usr/bin/env python3
"""DESIGN.md from tools/DESIGN.in.md and the axiom list (tools/assumptions.py; needs a build)."""
import subprocess, os
here = os.path.dirname(os.path.abspath(__file__))
a = subprocess.run(['python3', here + '/assumptions.py'], capture_output=True, text=True, check=True).stdout
a = ''.join('  ' + l + '\n' for l in a.splitlines())
s = open(here + '/DESIGN.in.md').read().replace('@@ASSUM\n', a)
open(here + '/../DESIGN.md', 'w').write(s)
