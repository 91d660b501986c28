#!/bin/sh
# local helper: build (optionally a single target), with a timeout
cd /verif/rocq && coq_makefile -f _CoqProject -o Makefile >/dev/null && timeout ${T:-1500} make -j4 "$@" 2>&1 | grep -v '^COQC\|^COQDEP\|^CLEAN\|^make' | head -${H:-60}
