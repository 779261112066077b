#!/bin/bash
# regenerate _CoqProject file list (dependency order is left to coq_makefile) and build
cd /verif/rocq && { echo "-Q theories Verif"; ls theories/*.v | sort; } > _CoqProject
coq_makefile -f _CoqProject -o Makefile >/dev/null && timeout 2400 make -j4 2>&1 > /tmp/build.log; grep -A6 'Error\|^File' /tmp/build.log | head -${1:-30}; echo build done
