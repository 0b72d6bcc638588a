#!/bin/sh
# Rebuild everything (regenerates _CoqProject's file list from tools/files.txt).
cd /verif/rocq
( echo "-Q theories Verif"; cat ../tools/files.txt ) > _CoqProject
coq_makefile -f _CoqProject -o Makefile >/dev/null && make -j4 "$@" 2>&1 | grep -v "^Closed under" | grep -v "^COQC\|^COQDEP"
