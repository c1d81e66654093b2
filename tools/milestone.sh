#!/bin/bash
# Regenerate the derived files and build: bash tools/milestone.sh
set -e
cd "$(dirname "$0")/.."
python3 tools/props1.py
bash tools/addfiles.sh
cd rocq && coq_makefile -f _CoqProject -o Makefile && make -j4 2>&1 | grep -v "^COQC\|^COQDEP\|Closed under" || true
cd .. && python3 tools/manifest.py | tail -1
