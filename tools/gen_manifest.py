#!/usr/bin/env python3
"""Regenerate MANIFEST.json: theorems named Cnn_* in rocq/theories/Props_*.v are the claims of property Cnn."""
import json, re, glob, os
root = os.path.dirname(os.path.dirname(os.path.abspath(__file__)))
props = [json.loads(l) for l in open(f"{root}/properties.jsonl")]
notes = json.load(open(f"{root}/tools/notes.json"))
thms = {}
for f in sorted(glob.glob(f"{root}/rocq/theories/Props_*.v")):
    for m in re.finditer(r"^Theorem\s+((C\d+)_\w+)", open(f).read(), re.M):
        thms.setdefault(m.group(2), []).append(m.group(1))
claims = []
for p in props:
    i = p["id"]; n = notes.get(i, {})
    t = thms.get(i, [])
    status = n.get("status", "proved" if t else "not_applicable")
    claims.append({"property": i, "status": status, "theorems": t, "note": n.get("note", p["title"])})
json.dump({"claims": claims}, open(f"{root}/MANIFEST.json", "w"), indent=1)
print(sum(c["status"] == "proved" for c in claims), "proved,", [c["property"] for c in claims if not c["theorems"]])
