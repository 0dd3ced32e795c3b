#!/bin/sh
# a compiled copy of the last commit for mutate.py
mkdir -p /tmp/mutbase && cd /verif && git archive HEAD rocq | tar x -C /tmp/mutbase && cd /tmp/mutbase/rocq && coq_makefile -f _CoqProject -o Makefile >/dev/null && make -j3 2>&1 | grep -i error
exit 0
