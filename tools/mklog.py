#!/usr/bin/env python3
"""Write seeded/LOG.jsonl: one line per attempt. usage: mklog.py out1.jsonl out2.jsonl ... (results of mutate.py,
later files replace earlier ones); seeded/mutants.py gives the edits, TIGHTENED the theorems added afterwards."""
import json, os, sys
root = os.path.dirname(os.path.dirname(os.path.abspath(__file__)))
ns = {}
exec(open(os.path.join(root, "seeded/mutants.py")).read(), ns)
res = {}
for f in sys.argv[1:]:
    for l in open(f):
        r = json.loads(l)
        if r.get("bad") and r["id"] in res and not res[r["id"]].get("bad"): continue
        if not r.get("failed") and not r.get("secs"): continue
        res[r["id"]] = r
out = open(os.path.join(root, "seeded/LOG.jsonl"), "w")
n = 0
for m in ns["MUTANTS"]:
    r = res.get(m["id"])
    if r is None or r.get("bad"): continue
    n += 1
    out.write(json.dumps({"id": m["id"], "definition": m["file"] + ".v: " + m["definition"], "edit": {"from": m["old"], "to": m["new"]},
        "breaks": m["claim"], "claims": m["expect"], "failed": r["failed"], "tightened": ns["TIGHTENED"].get(m["id"], [])}) + "\n")
print(n, "lines")
