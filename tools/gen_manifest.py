#!/usr/bin/env python3
"""Regenerates MANIFEST.json from the claims table below; checks that every named theorem exists in rocq/theories."""
import json, re, glob, os
here = os.path.dirname(os.path.abspath(__file__)); root = os.path.dirname(here)
claims = json.load(open(os.path.join(here, "claims.json")))
names = set()
for f in glob.glob(root + "/rocq/theories/*.v"):
    names |= set(re.findall(r"^\s*(?:Theorem|Lemma|Example|Corollary)\s+([A-Za-z0-9_']+)", open(f).read(), re.M))
bad = [(c["property"], t) for c in claims for t in c["theorems"] if t not in names]
if bad: raise SystemExit("unknown theorems: %r" % bad)
ids = [json.loads(l)["id"] for l in open(root + "/properties.jsonl")]
have = {c["property"] for c in claims}
for i in ids:
    if i not in have:
        print("no claim for", i)
claims = [c for c in claims if c["theorems"] or c["status"] == "not_applicable"]
json.dump({"claims": claims}, open(root + "/MANIFEST.json", "w"), indent=1)
