#!/usr/bin/env python3
"""Checks the citations 'file.py:a-b name' in the comments of the model against /repo: the file exists, the range is inside it and,
when the word after the range is the name of a function or class defined in that file, its definition overlaps the range."""
import re, os, glob, sys, ast
R = "/repo"
allf = {}
for d, _, fs in os.walk(R + "/mrmustard"):
    for f in fs:
        if f.endswith(".py") or f.endswith(".jl"): allf.setdefault(f, []).append(os.path.join(d, f))
spans = {}
def getspans(p):
    if p not in spans:
        s = {}
        if p.endswith(".py"):
            for n in ast.walk(ast.parse(open(p).read())):
                if isinstance(n, (ast.FunctionDef, ast.ClassDef)):
                    lo = min([n.lineno] + [x.lineno for x in n.decorator_list]); s.setdefault(n.name, []).append((lo, n.end_lineno))
        spans[p] = s
    return spans[p]
bad = 0
for f in sorted(glob.glob("/verif/rocq/theories/*.v")):
    t = open(f).read()
    for m in re.finditer(r"([\w/]+\.py):(\d+)(?:[-–](\d+))?,?\s*(?:\(?)([A-Za-z_]\w*)?", t):
        fn, a, b, name = m.group(1), int(m.group(2)), int(m.group(3) or m.group(2)), m.group(4)
        ps = [p for p in allf.get(os.path.basename(fn), []) if p.endswith("/" + fn)]
        line = t.count("\n", 0, m.start()) + 1
        loc = f"{os.path.basename(f)}:{line}"
        if not ps: print(loc, "no file", fn); bad += 1; continue
        ok = False; msg = ""
        for p in ps:
            n = len(open(p).read().split("\n"))
            if b > n: msg = f"beyond end ({n})"; continue
            sp = getspans(p)
            if name and name in sp:
                if any(lo <= b and a <= hi for lo, hi in sp[name]): ok = True
                else: msg = f"{name} is at {sp[name]}"
            else: ok = True
        if not ok: print(loc, m.group(0), "->", msg); bad += 1
print(bad, "suspicious")
