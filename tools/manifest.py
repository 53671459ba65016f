#!/usr/bin/env python3
"""Regenerates MANIFEST.json: theorem names are collected from rocq/theories/*Props.v by
their Cnn_ prefix; status and note come from tools/status.py."""
import glob, json, os, re
root = os.path.dirname(os.path.dirname(os.path.abspath(__file__)))
ns = {}
exec(open(os.path.join(root, "tools/status.py")).read(), ns)
status = ns["STATUS"]
thms = {}
for f in sorted(glob.glob(os.path.join(root, "rocq/theories/*Props.v"))):
    for m in re.finditer(r"^Theorem\s+(C\d\d\w*)", open(f).read(), re.M):
        thms.setdefault(m[1][:3], []).append(m[1])
claims = []
for line in open(os.path.join(root, "properties.jsonl")):
    p = json.loads(line)["id"]
    if p in thms:
        st, note = status.get(p, ("partial", "see DESIGN.md"))
        claims.append({"property": p, "status": st, "theorems": thms[p], "note": note})
missing = [json.loads(l)["id"] for l in open(os.path.join(root, "properties.jsonl")) if json.loads(l)["id"] not in thms]
json.dump({"claims": claims}, open(os.path.join(root, "MANIFEST.json"), "w"), indent=1)
print("claims", len(claims), "theorems", sum(map(len, thms.values())), "missing", missing)
