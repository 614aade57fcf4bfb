#!/usr/bin/env python3
"""Print Assumptions for every theorem named in MANIFEST.json (after a build in rocq/).

Prints the theorems whose assumptions are not "Closed under the global context" and a count."""
import json, os, re, subprocess, sys, tempfile
ROOT = os.path.dirname(os.path.dirname(os.path.abspath(__file__)))
TH = os.path.join(ROOT, "rocq", "theories")
names = [t for c in json.load(open(os.path.join(ROOT, "MANIFEST.json")))["claims"] for t in c["theorems"]]
where = {}
for f in sorted(os.listdir(TH)):
    if f.startswith("Props_") and f.endswith(".v"):
        for m in re.finditer(r"^\s*(?:Theorem|Lemma|Corollary) (\w+)", open(os.path.join(TH, f)).read(), re.M):
            where[m.group(1)] = f[:-2]
bad, ok = [], 0
files = sorted({where[n] for n in names})
for f in files:
    ns = [n for n in names if where[n] == f]
    with tempfile.TemporaryDirectory() as d:
        p = os.path.join(d, "a.v")
        with open(p, "w") as o:
            o.write("From Verif Require Import %s.\n" % f)
            for n in ns:
                o.write("Print Assumptions Verif.%s.%s.\n" % (f, n))
        r = subprocess.run(["coqc", "-Q", TH, "Verif", p], capture_output=True, text=True)
        if r.returncode:
            sys.exit(r.stderr)
        outs = [l for l in r.stdout.split("\n") if l]
        if all(l == "Closed under the global context" for l in outs) and len(outs) == len(ns):
            ok += len(ns)
        else:
            bad += [(f, r.stdout)]
for f, t in bad:
    print(f, t)
print(ok, "of", len(names), "closed under the global context")
