#!/usr/bin/env python3
"""Writes DESIGN.md from tools/design_head.md, tools/methods.py, MANIFEST.json, the theories and tools/assumptions.json."""
import json, os, re, glob
H = os.path.dirname(os.path.abspath(__file__)); V = os.path.join(H, "..")
exec(open(os.path.join(H, "methods.py")).read())
P = [json.loads(l) for l in open(os.path.join(V, "properties.jsonl"))]
M = {c["property"]: c for c in json.load(open(os.path.join(V, "MANIFEST.json")))["claims"]}
where = {}
files = [l.split("/")[-1].strip() for l in open(os.path.join(V, "rocq/_CoqProject")) if l.startswith("theories/")]
head = {}
for f in files:
    t = open(os.path.join(V, "rocq/theories", f)).read()
    for m in re.finditer(r"\b(?:Theorem|Lemma|Corollary) (\w+)", t): where.setdefault(m.group(1), f)
    m = re.search(r"\(\*\*(.*?)\*\)", t, re.S); head[f] = re.sub(r"\s+", " ", m.group(1)).strip() if m else ""
used = {}
for k, c in M.items():
    for th in c["theorems"]: used.setdefault(where.get(th, "?"), set()).add(k)
out = [open(os.path.join(H, "design_head.md")).read().rstrip(), "", "## Files (rocq/theories)", "", "| file | content | theorems of |", "|---|---|---|"]
for f in files:
    h = head[f].replace("|", "\\|"); h = h if len(h) < 230 else h[:227] + "..."
    out.append(f"| {f} | {h} | {', '.join(sorted(used.get(f, [])))} |")
out += ["", "## Properties: what is modelled and how it is proved", ""]
for p in P:
    c = M[p["id"]]; fs = sorted({where.get(t, "?") for t in c["theorems"]})
    out.append(f"* **{p['id']} {p['title']}** ({c['status']}; {', '.join(fs)}). {HOW[p['id']]}. {c['note']}")
A = json.load(open(os.path.join(H, "assumptions.json")))
groups = {}
for th, ax in A.items(): groups.setdefault(tuple(ax), []).append(th)
out += ["", "## What Print Assumptions lists", "", "For every theorem named in MANIFEST.json (generated by tools/assumptions.py):", ""]
for ax, ths in sorted(groups.items(), key=lambda x: len(x[0])):
    out.append("* " + ("closed under the global context (no axioms)" if not ax else ", ".join(f"`{a}`" for a in ax)) + ":"); out.append("  " + " ".join(sorted(ths))); out.append("")
open(os.path.join(V, "DESIGN.md"), "w").write("\n".join(out) + "\n")
miss = [t for c in M.values() for t in c["theorems"] if t not in A]
print(len(out), "lines; theorems without assumptions entry:", miss[:5], len(miss))
