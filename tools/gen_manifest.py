#!/usr/bin/env python3
"""Regenerates MANIFEST.json: every Theorem/Corollary named Cnn_... in rocq/theories/Props*.v is
attached to property Cnn; status and note come from tools/claims.json."""
import glob, json, os, re
root = os.path.dirname(os.path.dirname(os.path.abspath(__file__)))
props = [json.loads(l)["id"] for l in open(os.path.join(root, "properties.jsonl")) if l.strip()]
claims = json.load(open(os.path.join(root, "tools", "claims.json")))
names = {}
for f in sorted(glob.glob(os.path.join(root, "rocq", "theories", "Props*.v"))):
    for m in re.finditer(r"^\s*(?:Theorem|Corollary)\s+((C\d\d+)_\w+)", open(f).read(), re.M):
        names.setdefault(m.group(2), []).append(m.group(1))
out = []
for p in props:
    if p not in names:
        continue
    c = claims.get(p, {"status": "proved", "note": ""})
    out.append({"property": p, "status": c["status"], "theorems": names[p], "note": c["note"]})
json.dump({"claims": out}, open(os.path.join(root, "MANIFEST.json"), "w"), indent=1)
print(len(out), "claims;", "missing:", [p for p in props if p not in names])
