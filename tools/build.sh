#!/bin/sh
cd "$(dirname "$0")/../rocq" && coq_makefile -f _CoqProject -o Makefile && { timeout ${T:-3000} make -j4 > /tmp/build.out 2>&1; echo "make rc=$?"; grep -A12 "^File .*\|\*\*\*" /tmp/build.out | head -40; }
