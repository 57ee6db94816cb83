#!/bin/sh
# quiet build wrapper: ./mk.sh
cd "$(dirname "$0")" && ./mkproject.sh >/dev/null 2>&1
coq_makefile -f _CoqProject -o Makefile >/dev/null 2>&1
timeout ${T:-900} make -j4 2>&1 | awk '/^Warning|^\[(GRing|notation|ambiguous|projection)|New coercion|is ambiguous with existing|Closed under|^COQ|^File.*line [0-9]+, characters 0-(55|43|60|47):/ {next} {print}' | tail -${L:-30}
