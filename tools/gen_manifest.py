#!/usr/bin/env python3
"""Writes MANIFEST.json: theorems are collected from rocq/theories/Props*.v by their Cxx_ prefix."""
import re, json, glob, os
root = os.path.dirname(os.path.dirname(os.path.abspath(__file__)))
thms = {}
for f in sorted(glob.glob(root + '/rocq/theories/Props*.v')):
    for m in re.finditer(r'^Theorem (C(\d\d)_\w+)', open(f).read(), re.M):
        thms.setdefault('C' + m.group(2), []).append(m.group(1))
notes = json.load(open(root + '/tools/status.json'))
claims = []
for l in open(root + '/properties.jsonl'):
    i = json.loads(l)['id']
    st = notes.get(i, {})
    ts = thms.get(i, [])
    if not ts:
        claims.append({"property": i, "status": "partial", "theorems": [], "note": "not proved yet"})
    else:
        claims.append({"property": i, "status": st.get("status", "proved"), "theorems": ts, "note": st.get("note", "")})
json.dump({"claims": claims}, open(root + '/MANIFEST.json', 'w'), indent=1)
print(sum(c["status"] == "proved" for c in claims), "proved", sum(bool(c["theorems"]) for c in claims), "with theorems of", len(claims))
