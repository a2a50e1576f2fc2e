#!/usr/bin/env python3
"""Regenerate MANIFEST.json from the theorem names in rocq/theories/Prop_*.v and tools/notes.json.
A property Cnn owns every theorem named Cnn_*; it is 'partial' as soon as one of them is a _refuted or
_partial theorem (or when it has no theorem yet), otherwise 'proved'."""
import json, re, glob, os
root = os.path.dirname(os.path.dirname(os.path.abspath(__file__)))
notes = json.load(open(f"{root}/tools/notes.json"))
thms = {}
for f in sorted(glob.glob(f"{root}/rocq/theories/Prop_*.v")):
    for m in re.finditer(r"^(?:Theorem|Lemma|Corollary)\s+((C\d+)_\w+)", open(f).read(), re.M):
        thms.setdefault(m.group(2), []).append(m.group(1))
claims = []
for line in open(f"{root}/properties.jsonl"):
    p = json.loads(line)["id"]
    t = thms.get(p, [])
    bad = not t or any("_refuted" in x or "_partial" in x for x in t)
    status = notes.get(p, {}).get("status") or ("partial" if bad else "proved")
    note = notes.get(p, {}).get("note", "" if t else "not yet modelled")
    if status != "proved" and any("_refuted" in x for x in t) and not note.startswith("REFUTED"):
        note = "REFUTED. " + note
    claims.append({"property": p, "status": status, "theorems": t, "note": note})
json.dump({"claims": claims}, open(f"{root}/MANIFEST.json", "w"), indent=1)
print(sum(c["status"] == "proved" for c in claims), "proved", sum(c["status"] == "partial" for c in claims), "partial")
