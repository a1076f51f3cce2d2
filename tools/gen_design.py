#!/usr/bin/env python3
"""DESIGN.md from tools/design_text.md, properties.jsonl, MANIFEST.json and ASSUMPTIONS.md"""
import json, os
R = os.path.abspath(os.path.join(os.path.dirname(os.path.abspath(__file__)), ".."))
meth = json.load(open(R + "/tools/methods.json"))
ps = [json.loads(l) for l in open(R + "/properties.jsonl")]
cl = {c["property"]: c for c in json.load(open(R + "/MANIFEST.json"))["claims"]}
t = []
for p in ps:
    c = cl[p["id"]]; m = next((v for k, v in meth.items() if p["id"] in k.split()), "")
    t.append("**%s %s** (%s). Modelled and proved: %s %s Theorems: %s.\n" % (p["id"], p["title"], c["status"], m, c.get("note", ""), ", ".join("`%s`" % x for x in c["theorems"])))
a = open(R + "/ASSUMPTIONS.md").read().split("\n", 2)[2].replace("\n## ", "\n### ")
s = open(R + "/tools/design_text.md").read().replace("@@TABLE@@", "\n".join(t)).replace("@@ASSUMPTIONS@@", a.strip())
s = s.replace("\n@@MORE@@", "")
open(R + "/DESIGN.md", "w").write(s + "\n")
