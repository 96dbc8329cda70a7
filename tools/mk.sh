#!/bin/sh
# build helper: hides warnings
cd ${1:-/verif/rocq} && coq_makefile -f _CoqProject -o Makefile >/dev/null && timeout ${3:-600} make -j4 COQEXTRAFLAGS="-w none" 2>&1 | grep -v -E "^COQ|^make|^Closed under" | head -${2:-60}
