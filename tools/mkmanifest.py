#!/usr/bin/env python3
"""Write MANIFEST.json: collect the theorems named cNN_... in Properties_*.v."""
import json, re, glob, os
root = os.path.dirname(os.path.dirname(os.path.abspath(__file__)))
props = [json.loads(l)["id"] for l in open(root + "/properties.jsonl")]
notes = json.load(open(root + "/tools/notes.json"))
thms = {}
for f in sorted(glob.glob(root + "/rocq/theories/Properties_*.v")):
    for m in re.finditer(r"^(?:Theorem|Lemma|Corollary) (c(\d\d)_\w+)", open(f).read(), re.M):
        thms.setdefault("C" + m.group(2), []).append(m.group(1))
claims = []
for p in props:
    n = notes.get(p, {})
    ts = thms.get(p, [])
    status = n.get("status") or ("proved" if ts else None)
    if status is None:
        continue
    claims.append({"property": p, "status": status, "theorems": ts, "note": n.get("note", "")})
json.dump({"claims": claims}, open(root + "/MANIFEST.json", "w"), indent=1)
print(len(claims), "claims,", sum(len(c["theorems"]) for c in claims), "theorems; missing:",
      [p for p in props if p not in [c["property"] for c in claims]])
