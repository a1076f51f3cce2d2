#!/usr/bin/env python3
"""Writes MANIFEST.json from the theorem names in rocq/theories/Prop*.v (prefix Cnn_)."""
import re, json, glob, os, sys
root = os.path.join(os.path.dirname(os.path.abspath(__file__)), "..")
props = [json.loads(l) for l in open(os.path.join(root, "properties.jsonl"))]
notes = json.load(open(os.path.join(root, "tools", "notes.json")))
thms = {}
for f in sorted(glob.glob(os.path.join(root, "rocq/theories/Prop*.v"))):
    for m in re.finditer(r"^Theorem\s+((C\d+)_\w+)", open(f).read(), re.M):
        thms.setdefault(m.group(2), []).append(m.group(1))
claims = []
for p in props:
    i = p["id"]
    t = thms.get(i, [])
    n = notes.get(i, {})
    if not t and not n:
        print("no theorem yet:", i, file=sys.stderr); continue
    partial = any(x.endswith("_partial") or x.endswith("_refuted") for x in t)
    st = n.get("status") or ("not_applicable" if not t else "partial" if partial else "proved")
    claims.append({"property": i, "status": st, "theorems": t, "note": n.get("note", "")})
json.dump({"claims": claims}, open(os.path.join(root, "MANIFEST.json"), "w"), indent=1)
print(len(claims), "claims,", sum(len(c["theorems"]) for c in claims), "theorems")
