#!/usr/bin/env python3
"""Write rocq/theories/SimdTab.v: the byte tables of the vector code, copied from the C text."""
import re, os
R = "/repo/src/"
def table(f, name):
    s = open(R + f).read(); i = s.index(name + "["); i0 = s[:i].count("\n") + 1
    j = s.index("{", i); k = s.index("};", j); i1 = s[:k].count("\n") + 1
    body = re.sub(r"/\*.*?\*/|//[^\n]*", "", s[j:k], flags=re.S)
    return [int(x, 0) for x in re.findall(r"0x[0-9a-fA-F]+|\d+", body)], i0, i1
out = ["(** SimdTab: the constant tables of the vector code, copied from the C text by",
       "    tools/gen_simdtab.py (do not edit). *)", "From Verif Require Import Base.", ""]
for f, n, w in (("array_util.c", "shuffle_mask16", 16), ("array_util.c", "uniqshuf", 16),
                ("bitset_util.c", "lengthTable", 16), ("bitset_util.c", "vecDecodeTable", 8), ("bitset_util.c", "vecDecodeTable_uint16", 8), ("bitset_util.c", "vbmi2_table", 16)):
    t, a, b = table(f, n)
    assert len(t) % w == 0
    out.append(f"(** {f}:{a}-{b} {n} *)")
    out.append(f"Definition {n} : list Z :=\n [" + ";\n  ".join("; ".join(map(str, t[i:i + w])) for i in range(0, len(t), w)) + "].\n")
    print(n, len(t))
open(os.path.join(os.path.dirname(os.path.abspath(__file__)), "../rocq/theories/SimdTab.v"), "w").write("\n".join(out))
