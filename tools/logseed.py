#!/usr/bin/env python3
"""append the results of mutate.py to seeded/LOG.jsonl: logseed.py OUT.jsonl"""
import sys, json, os
ROOT = os.path.dirname(os.path.dirname(os.path.abspath(__file__)))
have = {(d["definition"], d["edit"]) for d in map(json.loads, open(ROOT + "/seeded/LOG.jsonl"))}
n = 0
with open(ROOT + "/seeded/LOG.jsonl", "a") as h:
    for l in open(sys.argv[1]):
        d = json.loads(l)
        if "error" in d or (d["definition"], d["edit"]) in have: continue
        note = d.pop("note", "")
        d.setdefault("theorems_tightened", [])
        if "quivalent" in d["claim_broken"]: d["note"] = "equivalent program (no claim becomes false)"
        elif not d["theorems_failed"]: d["note"] = "SURVIVED"; print("SURVIVED", d["definition"], d["edit"][:100])
        h.write(json.dumps(d) + "\n"); n += 1
print(n, "lines")
