#!/usr/bin/env python3
"""Generate operator mutants of the model definitions.
usage: mutgen.py SEED PER_DEF FILE.v ... > mutants.json
Only text before the proofs marker of each file is mutated; one record per edit."""
import json, random, re, sys, os
ROOT = os.path.join(os.path.dirname(os.path.abspath(__file__)), "..")
RULES = [(r"<=\?", ["<?"]), (r"(?<![<=])<\?", ["<=?"]), (r"(?<![<])=\?", ["<=?"]), (r"\+ 1\b", ["+ 2", "+ 0"]), (r"- 1\b", ["- 0", "- 2"]),
  (r"&&", ["||"]), (r"\|\|", ["&&"]), (r"\bnegb \(", ["("]), (r"Z\.land\b", ["Z.lor"]), (r"Z\.lor\b", ["Z.lxor"]), (r"Z\.lxor\b", ["Z.lor"]),
  (r"\b4096\b", ["4095", "4097"]), (r"\b65536\b", ["65535"]), (r"\b65535\b", ["65534"]), (r"\btrue\b", ["false"]), (r"\bfalse\b", ["true"]),
  (r"\b64\b", ["63"]), (r"\b63\b", ["62"]), (r"\b16\b", ["15"]), (r"\bmin\b", ["max"]), (r"\bmax\b", ["min"]), (r"Z\.min\b", ["Z.max"]), (r"Z\.max\b", ["Z.min"]),
  (r"\+ 2\b", ["+ 3"]), (r"\b1024\b", ["1023"]), (r"\b8\b", ["7"]), (r"\b32\b", ["31"]), (r"\br1 r2\b", ["r2 r1"]), (r"\ba b\b", ["b a"]),
  (r"\bx1 x2\b", ["x2 x1"]), (r"\bc1 c2\b", ["c2 c1"]), (r"\bNone\b", [])]
SKIP = set("lb bcard ccard celems cmem amem acard rmem inrun rcard vals mem km look W64 inter map2".split())
def main():
    rnd = random.Random(int(sys.argv[1])); per = int(sys.argv[2]); out = []
    for fn in sys.argv[3:]:
        s = open(f"{ROOT}/rocq/theories/{fn}").read()
        ms = [(m.start(), m.group(2)) for m in re.finditer(r"^(Definition|Fixpoint) (\w+)", s, re.M)]
        end = s.find("(** * Proofs")
        if end < 0:
            m = re.search(r"^(Lemma|Theorem)", s, re.M); end = m.start() if m else len(s)
        for (st, name) in ms:
            if st >= end or name in SKIP: continue
            e = re.compile(r"\.[ \t]*(\(\*[^\n]*)?\n").search(s, st).end()
            body = s[st:e]; b0 = body.find(":=")
            if b0 < 0 or "Prop :=" in body: continue
            cs = []
            for pat, reps in RULES:
                for m in re.finditer(pat, body):
                    if m.start() <= b0: continue
                    for r in reps: cs.append((m.start(), m.end(), r))
            rnd.shuffle(cs)
            for (a, b, r) in cs[:per]:
                # widen to a unique context
                lo, hi = st + a, st + b
                while s.count(s[lo:hi]) != 1 and lo > st: lo -= 1
                while s.count(s[lo:hi]) != 1: hi += 1
                lo = max(st, s.rfind("\n", 0, lo) + 1) if s[lo:st + a].strip() else lo
                old = s[lo:hi]; new = s[lo:st + a] + r + s[st + b:hi]
                cites = re.findall(r"\(\*\*(.*?)\*\)", s[:st], re.S)
                cite = " ".join(cites[-1].split())[:160] if cites else ""
                out.append(dict(file=fn, definition=name, old=old, new=new,
                                claim=f"{name} computes what the code at [{cite}] computes"))
    json.dump(out, sys.stdout, indent=1)
main()
