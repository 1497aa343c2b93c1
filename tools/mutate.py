#!/usr/bin/env python3
"""Mutation runner.  usage: mutate.py MUTANTS.json [OUT.jsonl]

Each mutant is {"file","definition","old","new","claim"}.  The edit is applied in a
scratch copy of rocq/ (built beforehand), then everything that depends on the file
is rebuilt until the first failure.  The property theorems resting on the failing
lemma are found from the .glob files of the unmodified build."""
import json, os, re, shutil, subprocess, sys, glob
ROOT = os.path.abspath(os.path.join(os.path.dirname(os.path.abspath(__file__)), ".."))
BASE = "/tmp/mut/base"; WORK = "/tmp/mut/work"
def sh(c, **k): return subprocess.run(c, shell=True, capture_output=True, text=True, **k)
DEF = re.compile(r"^(?:Local |Global )?(?:Lemma|Theorem|Example|Corollary|Definition|Fixpoint|Inductive|Record|Ltac|Notation)\s+(\w+)", re.M)
def graph():
    """module.name -> set of module.name it refers to"""
    g = {}
    for f in glob.glob(BASE + "/theories/*.glob"):
        mod = os.path.basename(f)[:-5]
        src = open(BASE + f"/theories/{mod}.v", encoding="utf-8").read().encode()
        defs = [(m.start(), m.group(1).decode()) for m in re.finditer(DEF.pattern.encode(), src, re.M)]
        starts = [d[0] for d in defs]
        import bisect
        for line in open(f):
            m = re.match(r"R(\d+):\d+ Verif\.(\w+) <> (\S+) (\w+)", line)
            if not m: continue
            i = bisect.bisect_right(starts, int(m.group(1))) - 1
            if i < 0: continue
            g.setdefault(f"{mod}.{defs[i][1]}", set()).add(f"{m.group(2)}.{m.group(3)}")
    return g
def users(g, name):
    rev = {}
    for a, bs in g.items():
        for b in bs: rev.setdefault(b, set()).add(a)
    seen, todo = set(), [name]
    while todo:
        x = todo.pop()
        for y in rev.get(x, ()):
            if y not in seen: seen.add(y); todo.append(y)
    return seen
def main():
    muts = json.load(open(sys.argv[1])); out = sys.argv[2] if len(sys.argv) > 2 else os.path.join(ROOT, "seeded/LOG.jsonl")
    g = graph()
    order = [l.strip() for l in open(BASE + "/_CoqProject") if l.strip().endswith(".v")]
    start = int(os.environ.get("START", "0"))
    for k, m in enumerate(muts):
        if k < start: continue
        sh(f"rm -rf {WORK}; cp -a {BASE} {WORK}")
        p = f"{WORK}/theories/{m['file']}"
        s = open(p).read()
        n = s.count(m["old"])
        if n != 1:
            print(f"#{k} {m['definition']}: pattern occurs {n} times, skipped"); continue
        open(p, "w").write(s.replace(m["old"], m["new"]))
        r = sh(f"cd {WORK} && timeout 3600 make TIMECMD=\"timeout 420\" -j{os.environ.get('MJ','3')} 2>&1")
        t = r.stdout
        e = re.search(r'File "\./theories/(\w+)\.v", line (\d+)[^\n]*\n(?:Error|[^\n]*\n?Error)', t) or None
        errs = [x for x in re.finditer(r'File "\./theories/(\w+)\.v", line (\d+), characters [^\n]*\nError', t)]
        rec = {"definition": f"{m['file']}:{m['definition']}", "edit": f"{m['old']}  ==>  {m['new']}", "claim_broken": m["claim"]}
        if r.returncode == 0:
            rec["result"] = "survived"; rec["theorems_failed"] = []
        elif not errs:
            mt = re.search(r"theories/(\w+)\.vo\] Error 124", t)
            if mt: rec["result"] = "killed (proof script no longer terminates within 7 minutes)"; rec["first_failure"] = mt.group(1); rec["theorems_failed"] = [mt.group(1) + ".v"]
            else: rec["result"] = "killed (other failure)"; rec["theorems_failed"] = [t[-300:]]
        else:
            mod, line = errs[0].group(1), int(errs[0].group(2))
            txt = open(f"{WORK}/theories/{mod}.v").read().split("\n")
            name = None
            for i in range(line - 1, -1, -1):
                mm = DEF.match(txt[i])
                if mm: name = mm.group(1); break
            full = f"{mod}.{name}"
            props = sorted(x.split(".")[1] for x in (users(g, full) | {full}) if x.startswith("Props") and re.match(r"C\d\d_", x.split(".")[1]))
            rec["result"] = "killed"; rec["first_failure"] = full; rec["theorems_failed"] = props or [full]
        rec["theorems_tightened"] = m.get("tightened", [])
        print(f"#{k} {rec['definition']}: {rec['result']} {rec.get('first_failure','')} ({len(rec['theorems_failed'])})", flush=True)
        open(out, "a").write(json.dumps(rec) + "\n")
if __name__ == "__main__": main()
