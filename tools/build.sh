#!/bin/sh
# Regenerate the Prop files, build, regenerate the manifest.
cd "$(dirname "$0")/.." && python3 tools/gen_prop.py && cd rocq && coq_makefile -f _CoqProject -o Makefile >/dev/null && make -j4 2>&1 | grep -A30 -E "^File|rror" ; cd .. && python3 tools/gen_manifest.py
