#!/usr/bin/env python3
"""Which functions of /repo/mrmustard are cited (file.py:a-b) by the model. usage: coverage.py [substring]"""
import ast, os, re, sys, glob
cites = {}
for f in glob.glob(os.path.dirname(os.path.abspath(__file__)) + "/../rocq/theories/*.v"):
    t = open(f).read(); last = None
    for m in re.finditer(r"([\w/]+\.py)(?::(\d+)(?:[-–](\d+))?((?:, ?\d+(?:[-–]\d+)?)*))?", t):
        fn = m.group(1)
        if m.group(2):
            rs = [(int(m.group(2)), int(m.group(3) or m.group(2)))]
            for x in re.finditer(r"(\d+)(?:[-–](\d+))?", m.group(4) or ""): rs.append((int(x.group(1)), int(x.group(2) or x.group(1))))
            for r in rs: cites.setdefault(os.path.basename(fn), []).append((fn, r))
tot = cov = 0
for p in sorted(glob.glob("/repo/mrmustard/**/*.py", recursive=True)):
    if len(sys.argv) > 1 and sys.argv[1] not in p: continue
    t = ast.parse(open(p).read()); out = []
    def walk(n, pre):
        global tot, cov
        for c in ast.iter_child_nodes(n):
            if isinstance(c, ast.ClassDef): walk(c, pre + c.name + ".")
            elif isinstance(c, ast.FunctionDef):
                tot += 1
                cs = [r for fn, r in cites.get(os.path.basename(p), []) if p.endswith(fn)]
                if any(a <= c.end_lineno and b >= c.lineno for a, b in cs): cov += 1
                else: out.append(f"{pre}{c.name}({c.end_lineno - c.lineno + 1})")
    walk(t, "")
    if out: print(p[len("/repo/mrmustard/"):], "::", " ".join(out))
print(cov, "of", tot)
