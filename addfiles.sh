#!/bin/bash
# addfiles.sh F...: list theories/F.v in _CoqProject before Tests.v (once)
cd "$(dirname "$0")/rocq"
for f in "$@"; do grep -q "^theories/$f.v$" _CoqProject || sed -i "s#^theories/Tests.v#theories/$f.v\ntheories/Tests.v#" _CoqProject; done
coq_makefile -f _CoqProject -o Makefile >/dev/null
make -j4 2>&1 | grep -v "^COQ\|Closed\|^Axioms\|variable-collision\|Warning: Collision\|line 86" | grep -A3 "^Error\|Error:\|Error \|Killed"
cd .. && python3 mkmanifest.py
