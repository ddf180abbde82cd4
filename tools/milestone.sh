#!/bin/sh
# regenerate everything, build, commit with message $1, run vcheck
cd "$(dirname "$0")/.." || exit 1
python3 tools/gen_properties.py && python3 tools/gen_manifest.py && (cd rocq && coq_makefile -f _CoqProject -o Makefile && make -j3 2>&1 | grep -A5 "Error" ; make 2>&1 | tail -1) && python3 tools/gen_design.py && python3 tools/gen_log.py && git add -A && git commit -qm "$1" && vcheck
