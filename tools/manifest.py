#!/usr/bin/env python3
"""Regenerate MANIFEST.json from the theorem names in rocq/theories/Props*.v.
A theorem belongs to property Cnn when its name starts with "Cnn_"."""
import glob, json, os, re
root = os.path.dirname(os.path.dirname(os.path.abspath(__file__)))
props = [json.loads(l)["id"] for l in open(f"{root}/properties.jsonl")]
notes = json.load(open(f"{root}/tools/notes.json"))
thms = {p: [] for p in props}
for f in sorted(glob.glob(f"{root}/rocq/theories/Props*.v")):
    for t in re.findall(r"^Theorem (C\d+)_(\w+)", open(f).read(), re.M):
        thms[t[0]].append("_".join(t))
claims = []
for p in props:
    if not thms[p]:
        continue
    status = "partial" if any(t.endswith("_partial") for t in thms[p]) else "proved"
    n = notes.get(p, {})
    claims.append({"property": p, "status": n.get("status", status), "theorems": thms[p],
                   "note": n.get("note", "")})
json.dump({"claims": claims}, open(f"{root}/MANIFEST.json", "w"), indent=1)
print(len(claims), "claims; missing:", [p for p in props if not thms[p]])
