#!/usr/bin/env python3
"""Print Assumptions for every theorem named in MANIFEST.json (after a build in rocq/):
   python3 tools/assumptions.py | sort | uniq -c"""
import json, re, glob, os, subprocess, tempfile
root = os.path.join(os.path.dirname(os.path.abspath(__file__)), "..")
th = sorted({t for c in json.load(open(os.path.join(root, "MANIFEST.json")))["claims"] for t in c["theorems"]})
where = {}
for f in glob.glob(os.path.join(root, "rocq/theories/*.v")):
    for n in re.findall(r'^\s*(?:Theorem|Lemma|Example|Corollary)\s+(\w+)', open(f).read(), re.M):
        where.setdefault(n, os.path.basename(f)[:-2])
src = "From Verif Require " + " ".join(sorted({where[t] for t in th})) + ".\n"
src += "".join(f"Print Assumptions {where[t]}.{t}.\n" for t in th)
d = tempfile.mkdtemp()
p = os.path.join(d, "Assumptions.v")
open(p, "w").write(src)
subprocess.run(["coqc", "-Q", os.path.join(root, "rocq/theories"), "Verif", p], check=True)
