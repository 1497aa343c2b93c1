#!/usr/bin/env python3
"""Build MANIFEST.json from the theorem names in rocq/theories/Props*.v.

A property is "proved" when all its theorems are unconditional statements of it,
"partial" when some theorem carries a _partial suffix, when a _refuted theorem
shows that the code does not have the property in full, or when NOTES says so."""
import glob, json, os, re
root = os.path.join(os.path.dirname(os.path.abspath(__file__)), "..")
props = [json.loads(l)["id"] for l in open(os.path.join(root, "properties.jsonl")) if l.strip()]
thms = {}
for f in sorted(glob.glob(os.path.join(root, "rocq/theories/Props*.v"))):
    for m in re.finditer(r"^Theorem ((C\d\d)_\w+)", open(f).read(), re.M):
        thms.setdefault(m.group(2), []).append(m.group(1))
NOTES = json.load(open(os.path.join(root, "tools/notes.json")))
claims = []
for p in props:
    t = thms.get(p, [])
    n = NOTES.get(p, {})
    st = n.get("status") or ("partial" if not t or any(x.endswith(("_partial", "_refuted")) for x in t) else "proved")
    claims.append({"property": p, "status": st, "theorems": t, "note": n.get("note", "")})
json.dump({"claims": claims}, open(os.path.join(root, "MANIFEST.json"), "w"), indent=1)
open(os.path.join(root, "MANIFEST.json"), "a").write("\n")
print({s: [c["property"] for c in claims if c["status"] == s] for s in ("proved", "partial", "not_applicable")})
