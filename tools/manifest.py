#!/usr/bin/env python3
"""Regenerate MANIFEST.json: every theorem named Cnn_* in a Properties*.v file belongs to property Cnn.
A property with a _partial theorem is reported partial unless listed in tools/status.json."""
import json, re, glob, os
root = os.path.dirname(os.path.dirname(os.path.abspath(__file__)))
props = [json.loads(l) for l in open(root + "/properties.jsonl")]
over = json.load(open(root + "/tools/status.json"))
th = {}
for f in sorted(glob.glob(root + "/rocq/theories/**/Properties*.v", recursive=True)):
    for m in re.finditer(r"^(?:Theorem|Corollary)\s+((C\d\d+)_\w+)", open(f).read(), re.M):
        th.setdefault(m.group(2), []).append(m.group(1))
claims = []
for p in props:
    i = p["id"]
    o = over.get(i, {})
    names = th.get(i, [])
    if o.get("status") == "not_applicable":
        st = "not_applicable"
    elif not names:
        continue
    else:
        st = o.get("status") or ("partial" if any(n.endswith("_partial") or n.endswith("_refuted") for n in names) else "proved")
    claims.append({"property": i, "status": st, "theorems": names, "note": o.get("note", "")})
json.dump({"claims": claims}, open(root + "/MANIFEST.json", "w"), indent=1)
print(len(claims), "claims,", sum(len(c["theorems"]) for c in claims), "theorems;",
      "unclaimed:", [p["id"] for p in props if p["id"] not in [c["property"] for c in claims]])
