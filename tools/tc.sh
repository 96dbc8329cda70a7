#!/bin/sh
# check one file with a time limit, reporting where it stopped
cd /verif/rocq && timeout ${2:-120} coqc -w none -time -Q theories Verif theories/$1.v > /tmp/tc.out 2>&1
r=$?
grep -v "secs\|^Closed" /tmp/tc.out | grep -q . || true; if [ $r -ne 0 ]; then grep -v "secs\|^Closed under" /tmp/tc.out | head -${3:-40}; echo "exit $r; last:"; grep secs /tmp/tc.out | tail -1; fi
exit $r
