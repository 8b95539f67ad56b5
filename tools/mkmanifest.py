#!/usr/bin/env python3
"""Writes MANIFEST.json from tools/claims.py and checks that all theorems exist."""
import json, os, re, sys
here = os.path.dirname(os.path.abspath(__file__))
sys.path.insert(0, here)
from claims import CLAIMS
root = os.path.dirname(here)
names = set()
th = os.path.join(root, "rocq", "theories")
for f in os.listdir(th):
    if f.endswith("Props.v"):
        names |= set(re.findall(r"^Theorem\s+(\w+)", open(os.path.join(th, f)).read(), re.M))
used = set()
for c in CLAIMS:
    for t in c["theorems"]:
        if t not in names:
            print("missing theorem", t)
        used.add(t)
for t in sorted(names - used):
    print("theorem not listed:", t)
ids = {json.loads(l)["id"] for l in open(os.path.join(root, "properties.jsonl"))}
for i in sorted(ids - {c["property"] for c in CLAIMS}):
    print("no claim yet for", i)
json.dump({"claims": CLAIMS}, open(os.path.join(root, "MANIFEST.json"), "w"), indent=1)
