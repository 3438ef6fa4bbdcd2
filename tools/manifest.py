#!/usr/bin/env python3
"""Writes MANIFEST.json. Theorem names are collected from the property files: every theorem named Cnn_* belongs to
property Cnn. A property is 'proved' unless listed in PARTIAL or one of its theorems ends in _partial or _refuted."""
import json, re, glob, os
root = os.path.dirname(os.path.dirname(os.path.abspath(__file__)))
NOTES = json.load(open(os.path.join(root, "tools", "notes.json")))
props = [json.loads(l)["id"] for l in open(os.path.join(root, "properties.jsonl"))]
thms = {}
for f in sorted(glob.glob(os.path.join(root, "rocq/theories/P_*.v"))):
    for m in re.finditer(r"^(?:Theorem|Corollary)\s+((C\d\d\d?)_\w+)", open(f).read(), re.M):
        thms.setdefault(m.group(2), []).append(m.group(1))
claims = []
for p in props:
    t = thms.get(p, [])
    if not t:
        continue
    partial = any(x.endswith("_partial") or x.endswith("_refuted") for x in t)
    claims.append({"property": p, "status": "partial" if partial else "proved", "theorems": t, "note": NOTES.get(p, "")})
json.dump({"claims": claims}, open(os.path.join(root, "MANIFEST.json"), "w"), indent=1)
print(len(claims), "of", len(props), "claimed;", sum(c["status"] == "partial" for c in claims), "partial; missing:",
      [p for p in props if p not in thms])
