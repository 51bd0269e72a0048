#!/bin/bash
# compile the given theories in order, showing only errors
cd /verif/rocq
for f in "$@"; do timeout 1200 coqc -Q theories Verif theories/$f.v > /tmp/cq_$f.log 2>&1 || { grep -B3 -A40 Error /tmp/cq_$f.log | head -60; exit 1; }; done; echo OK
