#!/bin/sh
# build, regenerate the manifest, commit with the given message, run vcheck
cd /verif/rocq && coq_makefile -f _CoqProject -o Makefile && make -j4 2>&1 | grep -B1 -A12 "^Error\|Error:" | head -40
grep -nE "Admitted|admit\b|^Axiom|^Parameter|Abort" theories/*.v
python3 /verif/tools/gen_manifest.py | tr -d '\n'
cd /verif && git add -A && git commit -qm "$1" && vcheck | sed 's/"library_axioms".*"manifest_status"/"manifest_status"/'
