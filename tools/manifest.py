#!/usr/bin/env python3
"""Rebuild MANIFEST.json from the Properties files and tools/notes.json."""
import json, re, glob, os
root = os.path.dirname(os.path.dirname(os.path.abspath(__file__)))
notes = json.load(open(os.path.join(root, "tools", "notes.json")))
props = [json.loads(l)["id"] for l in open(os.path.join(root, "properties.jsonl"))]
thms = {}
for f in sorted(glob.glob(os.path.join(root, "rocq", "theories", "*Properties.v"))):
    for m in re.finditer(r"^(?:Theorem|Corollary) ((C\d+)\w*)", open(f).read(), re.M):
        thms.setdefault(m.group(2), []).append(m.group(1))
claims = []
for p in props:
    ts = thms.get(p, [])
    n = notes.get(p, {})
    if not ts and not n:
        continue
    if n.get("status"):
        st = n["status"]
    elif not ts:
        continue
    elif any(t.endswith("_partial") or t.endswith("_refuted") for t in ts):
        st = "partial"
    else:
        st = "proved"
    claims.append({"property": p, "status": st, "theorems": ts, "note": n.get("note", "")})
json.dump({"claims": claims}, open(os.path.join(root, "MANIFEST.json"), "w"), indent=1)
print(len(claims), "claims,", sum(len(c["theorems"]) for c in claims), "theorems;",
      "missing:", [p for p in props if p not in [c["property"] for c in claims]])
for c in claims:
    if not c["note"]: print("no note", c["property"])
