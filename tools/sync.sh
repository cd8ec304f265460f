#!/bin/sh
# Lists every theory file in _CoqProject.
cd "$(dirname "$0")/../rocq" || exit 1
{ echo "-Q theories Verif"; ls theories/*.v; } > _CoqProject
coq_makefile -f _CoqProject -o Makefile
