#!/usr/bin/env python3
"""Regenerates MANIFEST.json from the theorem names in rocq/theories/Properties_*.v and
tools/status.json ({"C01": ["proved", "note"], ...})."""
import json, re, glob, os
root = os.path.dirname(os.path.dirname(os.path.abspath(__file__)))
status = json.load(open(root + "/tools/status.json"))
thms = {}
for f in sorted(glob.glob(root + "/rocq/theories/Properties_*.v")):
    for m in re.finditer(r"^Theorem ((C\d+)_\w+)", open(f).read(), re.M):
        thms.setdefault(m.group(2), []).append(m.group(1))
claims = []
for l in open(root + "/properties.jsonl"):
    p = json.loads(l)["id"]
    st, note = status.get(p, ["partial", "not yet modelled: see DESIGN.md"])
    claims.append({"property": p, "status": st, "theorems": thms.get(p, []), "note": note})
json.dump({"claims": claims}, open(root + "/MANIFEST.json", "w"), indent=1)
