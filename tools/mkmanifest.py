#!/usr/bin/env python3
"""Writes /verif/MANIFEST.json; checks that every named theorem exists."""
import json, re, glob, os
root = os.path.dirname(os.path.dirname(os.path.abspath(__file__)))
names = set()
for f in glob.glob(root + "/rocq/theories/Props*.v"):
    names |= set(re.findall(r"^(?:Theorem|Lemma|Corollary)\s+([\w']+)", open(f).read(), re.M))
C = []
used = set()
def c(pid, status, theorems, note):
    t = theorems.split()
    for x in t:
        assert x in names, (pid, x)
    used.update(t)
    assert status in ("proved", "partial", "not_applicable")
    C.append(dict(property="C%02d" % pid, status=status, theorems=t, note=note))

exec(open(root + "/tools/claims.py").read())
props = [json.loads(l)["id"] for l in open(root + "/properties.jsonl")]
have = [x["property"] for x in C]
assert len(set(have)) == len(have)
print("unclaimed properties:", [p for p in props if p not in have])
print("theorems not in manifest:", sorted(names - used))
C.sort(key=lambda x: x["property"])
json.dump(dict(claims=C), open(root + "/MANIFEST.json", "w"), indent=1)
