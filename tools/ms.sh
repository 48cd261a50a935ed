#!/bin/bash
# milestone: print-assumptions, project list, manifest, commit, vcheck (files must already compile one by one)
cd /verif
bash tools/pa.sh
for f in rocq/theories/*.v; do b=theories/$(basename $f); grep -qx "$b" rocq/_CoqProject || echo "$b" >> rocq/_CoqProject; done
python3 tools/manifest.py | tail -c 300
git add -A; git commit -qm "$1"; vcheck 2>&1 | grep -o '"gate.*'
