#!/usr/bin/env python3
"""Which C functions of /repo have a Gallina counterpart: by name, or by a citation of their lines."""
import re, sys, os, glob
sys.path.insert(0, os.path.dirname(os.path.abspath(__file__)))
from cfuncs import funcs
TH = os.path.join(os.path.dirname(os.path.abspath(__file__)), "..", "rocq", "theories")
defs = {}; cites = {}
for f in sorted(glob.glob(TH + "/*.v")):
    b = os.path.basename(f)
    if b.startswith("Props"): continue
    s = open(f).read()
    for m in re.finditer(r"^(?:Local )?(?:Definition|Fixpoint|with|Inductive|Record) (\w+)", s, re.M): defs.setdefault(m.group(1), b)
    cur = None
    for m in re.finditer(r"(\w+\.(?:c|h)):(\d+(?:-\d+)?(?:, ?\d+(?:-\d+)?)*)", s):
        for r in re.findall(r"\d+(?:-\d+)?", m.group(2)):
            a, _, z = r.partition("-"); cites.setdefault(m.group(1), []).append((int(a), int(z or a), b))
SRC = "/repo/"
files = [SRC + p for p in """src/array_util.c include/roaring/array_util.h src/bitset_util.c include/roaring/bitset_util.h src/bitset.c include/roaring/bitset/bitset.h
src/containers/array.c include/roaring/containers/array.h src/containers/bitset.c include/roaring/containers/bitset.h src/containers/run.c include/roaring/containers/run.h
src/containers/convert.c src/containers/mixed_andnot.c src/containers/mixed_equal.c include/roaring/containers/mixed_equal.h src/containers/mixed_intersection.c src/containers/mixed_negation.c
src/containers/mixed_subset.c src/containers/mixed_union.c src/containers/mixed_xor.c src/containers/containers.c include/roaring/containers/containers.h
src/roaring_array.c include/roaring/roaring_array.h src/roaring.c include/roaring/roaring.h src/roaring_priority_queue.c src/art/art.c src/roaring64.c include/roaring/roaring64.h""".split()]
tot = [0, 0, 0]
for p in files:
    base = os.path.basename(p); un = []; ci = []
    seen = set()
    for n, a, z in funcs(p):
        if n in seen: continue
        seen.add(n); tot[0] += 1
        if n in defs: tot[1] += 1
        elif any(x <= z and a <= y for x, y, _ in cites.get(base, [])): ci.append(f"{n}:{a}"); tot[2] += 1
        else: un.append(f"{n}:{a}")
    print(f"== {p[6:]}  cited only: {', '.join(ci) or '-'}\n   NOT: {', '.join(un) or '-'}")
print(tot)
