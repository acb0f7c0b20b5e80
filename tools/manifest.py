#!/usr/bin/env python3
"""Writes MANIFEST.json from the table below and checks that every theorem name exists in the sources."""
import json, re, glob, os
here = os.path.dirname(os.path.abspath(__file__)); root = os.path.dirname(here)
C = []
def claim(p, status, theorems, note): C.append(dict(property=p, status=status, theorems=theorems.split(), note=note))
exec(open(os.path.join(here, "claims.py")).read())
src = "\n".join(open(f).read() for f in sorted(glob.glob(root + "/rocq/theories/*.v")))
names = set(re.findall(r"\b(?:Theorem|Lemma|Example|Corollary|Definition)\s+([A-Za-z0-9_']+)", src))
bad = [(c["property"], t) for c in C for t in c["theorems"] if t not in names]
assert not bad, bad
props = [json.loads(l)["id"] for l in open(root + "/properties.jsonl")]
have = [c["property"] for c in C]
assert len(set(have)) == len(have), "duplicate"
print("missing claims:", [p for p in props if p not in have])
json.dump({"claims": C}, open(root + "/MANIFEST.json", "w"), indent=1)
