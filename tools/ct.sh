#!/bin/bash
# compile one theory with timings: shows slow sentences, errors and the last sentence reached
cd /verif/rocq
timeout ${T:-200} coqc -time -Q theories Verif theories/$1.v > /tmp/ct.log 2>&1; echo "rc $?"
grep "^Chars" /tmp/ct.log | awk '{ if ($(NF-2)+0>1.5) print }' | tail
grep -A${L:-25} "^Error" /tmp/ct.log | head -60; grep Chars /tmp/ct.log | tail -1
