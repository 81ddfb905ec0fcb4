#!/usr/bin/env python3
"""Writes MANIFEST.json from the table below; theorem names are checked against the sources."""
import json, re, glob
C = []
def claim(p, status, theorems, note=""):
    C.append({"property": p, "status": status, "theorems": theorems.split(), "note": note})
exec(open("/verif/tools/claims.py").read())
names = set()
for f in glob.glob("/verif/rocq/theories/*.v"):
    names |= set(re.findall(r"^(?:Theorem|Lemma|Corollary)\s+([A-Za-z0-9_']+)", open(f).read(), re.M))
for c in C:
    for t in c["theorems"]:
        assert t in names, t
props = [json.loads(l)["id"] for l in open("/verif/properties.jsonl")]
have = {c["property"] for c in C}
print("missing:", [p for p in props if p not in have], "unknown:", [p for p in have if p not in props])
thms = set(t for c in C for t in c["theorems"])
print("Prop theorems not in manifest:", sorted(n for n in names if re.match(r"C\d\d", n) and n not in thms))
json.dump({"claims": C}, open("/verif/MANIFEST.json", "w"), indent=1)
