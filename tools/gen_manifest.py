#!/usr/bin/env python3
"""Writes /verif/MANIFEST.json and checks that every theorem named exists."""
import json, os, re
here = os.path.dirname(os.path.abspath(__file__)); root = os.path.dirname(here)
C = []
def c(pid, status, theorems, note): C.append(dict(property=pid, status=status, theorems=theorems.split(), note=note))
exec(open(os.path.join(here, "manifest_data.py")).read())
ids = [json.loads(l)["id"] for l in open(os.path.join(root, "properties.jsonl"))]
src = "".join(open(os.path.join(root, "rocq/theories", f)).read() for f in os.listdir(os.path.join(root, "rocq/theories")) if f.startswith("Props") and f.endswith(".v"))
names = set(re.findall(r"^(?:Theorem|Corollary) (\S+)", src, re.M))
used = set()
for x in C:
    assert x["property"] in ids, x
    for t in x["theorems"]:
        assert t in names, t
        used.add(t)
print("theorems not in the manifest:", sorted(names - used))
print("properties without entry:", [i for i in ids if i not in {x["property"] for x in C}])
json.dump(dict(claims=C), open(os.path.join(root, "MANIFEST.json"), "w"), indent=1)
