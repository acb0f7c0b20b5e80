#!/usr/bin/env python3
"""Seeded-bug harness. usage: mutate.py MUTATIONS.py OUT.jsonl [workers]
MUTATIONS.py calls M(file, definition, old, new, claim) where claim is e.g. "C05: text".
Each mutation is applied to a scratch copy of rocq/ (outside /verif); the edited file and its dependents are recompiled;
a proof that fails is replaced by Admitted in the scratch copy so that the later ones are tried too; then the manifest theorems
that failed or rest on a failed lemma are listed (by Print Assumptions)."""
import sys, os, re, json, subprocess, shutil, concurrent.futures as cf
ROOT = os.path.dirname(os.path.dirname(os.path.abspath(__file__)))
MUTS = []
def M(file, definition, old, new, claim, edit=None): MUTS.append(dict(file=file, definition=definition, old=old, new=new, claim=claim, edit=edit))
exec(open(sys.argv[1]).read())
OUT = sys.argv[2]; W = int(sys.argv[3]) if len(sys.argv) > 3 else 3
files = [l.strip()[9:-2] for l in open(ROOT + "/rocq/_CoqProject") if l.strip().startswith("theories/")]
src = {f: open(f"{ROOT}/rocq/theories/{f}.v").read() for f in files}
def getdeps(t):
    r = set(re.findall(r"Verif\.(\w+)", t))
    for x in re.findall(r"From Verif Require (?:Import|Export)?([^.]*)\.", t): r |= set(x.split())
    return r
deps = {f: getdeps(src[f]) for f in files}
def dependents(f):
    r = [f]
    for g in files:
        if g != f and deps[g] & set(r): r.append(g)
    return r   # _CoqProject is in dependency order
man = json.load(open(ROOT + "/MANIFEST.json"))
thms = [t for c in man["claims"] for t in c["theorems"]]
where = {}
for f in files:
    for t in re.findall(r"\b(?:Theorem|Lemma|Example|Corollary)\s+([A-Za-z0-9_']+)", src[f]): where.setdefault(t, f)
def run(cmd, cwd, to=400):
    try: p = subprocess.run(cmd, cwd=cwd, shell=True, capture_output=True, text=True, timeout=to); return p.returncode, p.stdout + p.stderr
    except subprocess.TimeoutExpired: return 124, "TIMEOUT"
def one(i, m):
    d = f"/tmp/mut/m{i}"; shutil.rmtree(d, ignore_errors=True); shutil.copytree(ROOT + "/rocq/theories", d + "/theories")
    cwd = d + "/theories"; failed = []; note = ""
    p = f"{cwd}/{m['file']}.v"; s = open(p).read()
    k = s.find(m["old"])
    if s.count(m["old"]) > 1:   # the first occurrence inside the definition
        h = re.search(r"\b(?:Definition|Fixpoint|Inductive|Record)\s+" + re.escape(m["definition"]) + r"\b", s)
        k = s.find(m["old"], h.start()) if h else -1
    if k < 0: return dict(m, error="old text not found")
    open(p, "w").write(s[:k] + m["new"] + s[k + len(m["old"]):])
    aff = dependents(m["file"]); built = []
    for f in aff:
        if any(x in ["!"] for x in built): break
        for k in range(60):
            rc, out = run(f"ulimit -v 6000000; timeout 390 coqc -w none -Q . Verif {f}.v", cwd)
            if rc == 0: built.append(f); break
            mm = re.search(r'line (\d+), characters', out)
            t = open(f"{cwd}/{f}.v").read()
            if not mm:
                # time out or memory: give up on this file
                note += f" {f}: {out[-200:]}"; failed.append(f + ":?"); break
            lines = t.split("\n"); off = sum(len(x) + 1 for x in lines[:int(mm.group(1)) - 1]) + int(re.search(r'characters (\d+)', out).group(1))
            a = t.rfind("Proof", 0, off + 6); q = re.compile(r"\b(Qed|Defined)\.")
            e = q.search(t, a)
            st = list(re.finditer(r"\b(?:Theorem|Lemma|Example|Corollary|Definition|Fixpoint|Instance|Remark|Fact)\s+([A-Za-z0-9_']+)", t[:off + 1]))
            name = st[-1].group(1) if st else "?"
            if a < 0 or not e or e.end() < off or (st and st[-1].start() > a):
                note += f" {f}:{mm.group(1)} not in a proof ({name}): {out[-300:]}"; failed.append(f"{f}:{name}(statement)"); break
            failed.append(name)
            open(f"{cwd}/{f}.v", "w").write(t[:a] + "Admitted." + t[e.end():])
        else: note += f" {f}: too many failures"
        if f not in built: break
    broken = []
    rel = [t for t in thms if where.get(t) in aff]
    chk = [t for t in rel if where[t] in built]
    broken += [t + " (file not built)" for t in rel if where[t] not in built]
    if failed and chk:
        for mod in dict.fromkeys(where[t] for t in chk):
            ts = [t for t in chk if where[t] == mod]
            with open(f"{cwd}/chk.v", "w") as h:
                h.write(f"Require Verif.{mod}.\n" + "".join(f'Check tt : unit. Print Assumptions Verif.{mod}.{t}.\n' for t in ts))
            rc, out = run("coqc -w none -Q . Verif chk.v", cwd)
            parts = re.split(r"^tt : unit\n\s+: unit\n", out, flags=re.M)[1:]
            for t, o in zip(ts, parts + [None] * len(ts)):
                names = {n.split(".")[-1] for n in re.findall(r"^([A-Za-z0-9_.']+)\s*(?::|$)", o or "", re.M)}
                if rc != 0 or o is None or names & set(failed): broken.append(t)
    shutil.rmtree(d, ignore_errors=True)
    return dict(definition=f"{m['file']}.{m['definition']}", edit=m["edit"] or f"`{m['old'].strip()}` -> `{m['new'].strip()}`", claim_broken=m["claim"], theorems_failed=broken, proofs_failed=failed, note=note.strip())
with cf.ThreadPoolExecutor(W) as ex:
    for r in ex.map(lambda im: one(*im), enumerate(MUTS)):
        with open(OUT, "a") as h: h.write(json.dumps(r) + "\n")
        print(("ERROR " + r["error"] + " " + r["definition"]) if "error" in r else ("SURVIVED " if not r["theorems_failed"] else "killed ") + r["definition"] + " | " + r["claim_broken"] + " | " + " ".join(r["theorems_failed"])[:300] + " || " + " ".join(r["proofs_failed"])[:150] + " " + r["note"][:200], flush=True)
