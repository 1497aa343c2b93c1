#!/usr/bin/env python3
"""List the functions of a C file with their line ranges: cfuncs.py FILE..."""
import re, sys
def funcs(path):
    L = open(path, encoding="utf-8", errors="replace").read().split("\n"); out = []; i = 0
    while i < len(L):
        if re.match(r"[A-Za-z_]", L[i]) and not re.match(r"(typedef|struct|enum|union|extern|namespace|using|#|return|else)\b", L[i]):
            j = i; sig = ""
            while j < len(L) and j < i + 14:
                sig += L[j] + " "
                if L[j].rstrip().endswith(";") or "{" in L[j]: break
                j += 1
            m = re.search(r"(\w+)\s*\(", re.sub(r"CROARING_TARGET_\w+|__attribute__\s*\(\(.*?\)\)", "", sig))
            if m and "{" in sig and "=" not in sig.split("(")[0]:
                if L[j].rstrip().endswith("}"): k = j
                else:
                    k = j + 1
                    while k < len(L) and not L[k].startswith("}"): k += 1
                out.append((m.group(1), i + 1, k + 1)); i = k
        i += 1
    return out
if __name__ == "__main__":
    for p in sys.argv[1:]:
        for n, a, b in funcs(p): print(f"{p.split('/')[-1]}:{a}-{b} {n}")
