#!/usr/bin/env python3
"""Writes /verif/MANIFEST.json from the theorem names in rocq/theories/Prop*.v.
A theorem named Cnn_... belongs to property Cnn.  A property with a _refuted or
_partial theorem is 'partial' unless it is listed in PROVED (its statement already allows for
the defect the refutation shows)."""
import glob, json, re, os, sys
sys.path.insert(0, os.path.dirname(__file__))
from notes import NOTES, PROVED, PARTIAL
thms = {}
for f in sorted(glob.glob("/verif/rocq/theories/Prop*.v")):
    for m in re.finditer(r"^(?:Theorem|Lemma|Corollary)\s+(C\d\d+_\w+)", open(f).read(), re.M):
        thms.setdefault(m.group(1).split("_")[0], []).append(m.group(1))
props = [json.loads(l)["id"] for l in open("/verif/properties.jsonl")]
claims = []
for p in props:
    if p not in thms:
        continue
    t = thms[p]
    partial = any(x.endswith("_refuted") or x.endswith("_partial") for x in t)
    status = "partial" if ((partial and p not in PROVED) or p in PARTIAL) else "proved"
    claims.append(dict(property=p, status=status, theorems=t, note=NOTES.get(p, "")))
missing = [p for p in props if p not in thms]
extra = [p for p in thms if p not in props]
json.dump({"claims": claims}, open("/verif/MANIFEST.json", "w"), indent=1)
print(len(claims), "claims; no theorem yet:", missing, "unknown:", extra)
