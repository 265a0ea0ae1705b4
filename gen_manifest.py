#!/usr/bin/env python3
"""Writes MANIFEST.json from the table below, checking that each theorem name occurs in rocq/theories."""
import json, os, re, glob
here = os.path.dirname(os.path.abspath(__file__))
src = "\n".join(open(f).read() for f in glob.glob(here + "/rocq/theories/*.v"))
names = set(re.findall(r"^(?:Theorem|Lemma|Corollary)\s+([A-Za-z0-9_']+)", src, re.M))
exec(open(here + "/manifest_table.py").read())
ids = [json.loads(l)["id"] for l in open(here + "/properties.jsonl")]
claims = []
for i in ids:
    if i not in M: print("missing", i); continue
    st, ths, note = M[i]
    for t in ths:
        if t not in names: print("unknown theorem", i, t)
    claims.append(dict(property=i, status=st, theorems=ths, note=note))
json.dump({"claims": claims}, open(here + "/MANIFEST.json", "w"), indent=1)
print(len(claims), "claims")
