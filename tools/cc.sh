#!/bin/sh
# usage: cc.sh Mod1 ... : compile modules in place, showing only errors
cd "$(dirname "$0")/../rocq"
for m in "$@"; do coqc -Q theories Verif theories/$m.v > /tmp/cc.out 2>&1; grep -A${CCN:-30} "^File" /tmp/cc.out | head -${CCN:-60}; done
