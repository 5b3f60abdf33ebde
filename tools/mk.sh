#!/bin/bash
# regenerate _CoqProject's file list and build; prints the tail of the output and the exit code
cd "$(dirname "$0")/../rocq" || exit 1
{ grep -v '^theories/' _CoqProject; find theories -name '*.v' | sort; } > _CoqProject.new && mv _CoqProject.new _CoqProject
coq_makefile -f _CoqProject -o Makefile >/dev/null 2>&1
timeout ${MKT:-300} make -j4 > /tmp/mk.log 2>&1; rc=$?
grep -v '^Closed under\|^COQC\|^COQDEP' /tmp/mk.log | tail -${1:-20}; echo "rc=$rc"
