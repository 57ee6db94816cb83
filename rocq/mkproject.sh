#!/bin/sh
# regenerate _CoqProject's file list
cd "$(dirname "$0")"
{ echo "-Q theories Verif"; find theories -name '*.v' | sort; } > _CoqProject
