#!/usr/bin/env python3
"""Writes ../MANIFEST.json from the table below; theorem names are collected from the Props*.v
files by their Cnn_ prefix."""
import json, os, re, glob
here = os.path.dirname(os.path.abspath(__file__))
props = [json.loads(l)["id"] for l in open(os.path.join(here, "..", "properties.jsonl"))]
thms = {}
for f in sorted(glob.glob(os.path.join(here, "..", "rocq", "theories", "Props*.v"))):
    for m in re.finditer(r"^Theorem\s+((C\d\d)_\w+)", open(f).read(), re.M):
        thms.setdefault(m.group(2), []).append(m.group(1))
NOTES = {}
exec(open(os.path.join(here, "notes.py")).read())
claims = []
for p in props:
    t = thms.get(p, [])
    if not t: 
        status = "not_applicable" if p in NOTES and NOTES[p].startswith("NA:") else None
        if status is None: continue
    else:
        status = "partial" if any(x.endswith("_partial") or x.endswith("_refuted") for x in t) else "proved"
    claims.append({"property": p, "status": status, "theorems": t, "note": NOTES.get(p, "")})
json.dump({"claims": claims}, open(os.path.join(here, "..", "MANIFEST.json"), "w"), indent=1)
print(len(claims), "claims;", sum(len(c["theorems"]) for c in claims), "theorems; missing:", [p for p in props if p not in [c["property"] for c in claims]])
