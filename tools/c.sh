#!/bin/sh
# compile single files: tools/c.sh A B ...   (prints only errors)
cd "$(dirname "$0")/../rocq"
for f in "$@"; do timeout ${T:-600} coqc -Q theories Verif theories/$f.v > /tmp/c.out 2>&1; rc=$?
if [ $rc -ne 0 ]; then echo "FAILED $f rc=$rc"; sed -n '/^File /,$p' /tmp/c.out | grep -v "Closed under" | head -${L:-60}; break; fi; done
