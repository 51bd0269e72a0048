#!/bin/bash
cd /verif/rocq && coq_makefile -f _CoqProject -o Makefile && make -j4 > /tmp/mk.log 2>&1 ; grep -B2 -A25 "^Error" /tmp/mk.log | head -${1:-60}; tail -1 /tmp/mk.log | cut -c1-200
