#!/usr/bin/env python3
"""Regenerate MANIFEST.json from the theorem names in rocq/theories/P_*.v.
status: proved if some theorem is neither _partial nor _refuted and NOTES does not downgrade it."""
import re, json, glob, os
root = os.path.dirname(os.path.dirname(os.path.abspath(__file__)))
props = [json.loads(l) for l in open(root + "/properties.jsonl")]
notes = json.load(open(root + "/tools/notes.json"))
thms = {}
for f in sorted(glob.glob(root + "/rocq/theories/P_*.v")):
    for m in re.finditer(r"^ *Theorem (C(\d\d+)\w*)", open(f).read(), re.M):
        thms.setdefault("C" + m.group(2), []).append(m.group(1))
claims = []
for p in props:
    i = p["id"]; t = thms.get(i, [])
    n = notes.get(i, {})
    if not t:
        status = n.get("status", "not_applicable" if n else "partial")
        note = n.get("note", "Planned; not yet modelled.")
        if not n: continue
    else:
        bad = any(x.endswith("_partial") or x.endswith("_refuted") for x in t)
        status = n.get("status", "partial" if bad else "proved")
        note = n.get("note", "")
    claims.append(dict(property=i, status=status, theorems=t, note=note))
json.dump({"claims": claims}, open(root + "/MANIFEST.json", "w"), indent=1)
for c in claims: print(c["property"], c["status"], len(c["theorems"]))
