#!/usr/bin/env python3
"""Runs Print Assumptions on every theorem of MANIFEST.json (needs the compiled theories) and writes tools/assumptions.json."""
import json, os, re, subprocess, sys, tempfile
H = os.path.dirname(os.path.abspath(__file__)); V = os.path.join(H, "..")
M = json.load(open(os.path.join(V, "MANIFEST.json")))["claims"]
where = {}
for l in open(os.path.join(V, "rocq/_CoqProject")):
    if l.startswith("theories/"):
        f = l.split("/")[-1].strip()
        for m in re.finditer(r"\b(?:Theorem|Lemma|Corollary) (\w+)", open(os.path.join(V, "rocq/theories", f)).read()): where.setdefault(m.group(1), f[:-2])
by = {}
for c in M:
    for t in c["theorems"]: by.setdefault(where[t], set()).add(t)
old = os.path.join(H, "assumptions.json"); res = json.load(open(old)) if os.path.exists(old) and sys.argv[1:] != ["--all"] else {}
res = {t: a for t, a in res.items() if t in where}
for mod, ths in by.items():
    if mod not in sys.argv[1:]: ths = {t for t in ths if t not in res}   # arguments: modules to redo, or --all
    if not ths: continue
    ths = sorted(ths); src = f"From Verif Require Import {mod}.\n" + "".join(f"Print Assumptions {mod}.{t}.\n" for t in ths)
    with tempfile.TemporaryDirectory() as d:
        p = os.path.join(d, "a.v"); open(p, "w").write(src)
        o = subprocess.run(["coqc", "-w", "none", "-Q", os.path.join(V, "rocq/theories"), "Verif", p], capture_output=True, text=True)
        if o.returncode: print(mod, o.stderr[:300]); continue
    blocks = []
    for line in o.stdout.split("\n"):
        if line.startswith("Closed under"): blocks.append([])
        elif line.startswith("Axioms:"): blocks.append([])
        elif re.match(r"^[A-Za-z_][\w.']*( :|$)", line): blocks[-1].append(line.split()[0])
    assert len(blocks) == len(ths), (mod, len(blocks), len(ths))
    for t, b in zip(ths, blocks): res[t] = sorted(b)
json.dump(res, open(os.path.join(H, "assumptions.json"), "w"), indent=0, sort_keys=True)
print(len(res)); print(sorted({a for b in res.values() for a in b}))
