#!/bin/sh
# usage: addmods.sh Mod1 Mod2 ... : append modules to _CoqProject if missing
cd "$(dirname "$0")/../rocq"
for m in "$@"; do grep -qx "theories/$m.v" _CoqProject || echo "theories/$m.v" >> _CoqProject; done
