#!/bin/sh
# milestone: regenerate, build, commit, gate
cd /verif && python3 tools/gen_properties.py && python3 tools/gen_manifest.py && python3 tools/gen_files.py
(cd rocq && coq_makefile -f _CoqProject -o Makefile >/dev/null && (ulimit -v 9000000; timeout 2400 make -j4 2>&1 | grep -A8 "Error" | head -20))
git add -A && git commit -qm "$1"; vcheck | tail -25
