#!/usr/bin/env python3
"""Regenerate MANIFEST.json from the theorem names in rocq/theories/*.v.

A theorem belongs to property Cnn when its name starts with Cnn_.  A property is
"proved" when it has theorems and none is named _partial or _refuted; otherwise
"partial".  Notes live in tools/notes.json."""
import re, json, glob, os
root = os.path.dirname(os.path.dirname(os.path.abspath(__file__)))
ids = [json.loads(l)["id"] for l in open(root + "/properties.jsonl")]
files = [l.strip() for l in open(root + "/tools/files.txt") if l.strip()]
th = {}
for f in files:
    for m in re.finditer(r"^ *Theorem (C\d+_\w+)", open(f"{root}/rocq/{f}").read(), re.M):
        th.setdefault(m.group(1).split("_")[0], []).append(m.group(1))
notes = json.load(open(root + "/tools/notes.json"))
claims = []
for i in ids:
    names = th.get(i, [])
    if not names:
        if notes.get(i, {}).get("status") == "not_applicable":
            claims.append({"property": i, "status": "not_applicable", "theorems": [], "note": notes[i]["note"]})
        continue
    part = any(n.endswith("_partial") or n.endswith("_refuted") for n in names)
    n = notes.get(i, {})
    status = n.get("status") or ("partial" if part else "proved")
    claims.append({"property": i, "status": status, "theorems": names, "note": n.get("note", "")})
missing = [i for i in ids if i not in {c["property"] for c in claims}]
print("claims:", len(claims), "without theorem:", missing)
json.dump({"claims": claims}, open(root + "/MANIFEST.json", "w"), indent=1)
