#!/usr/bin/env python3
"""Writes MANIFEST.json: theorem names are collected from the *Props.v files by their Cnn_ prefix; status and
notes are given here. Statement-level partial/refuted results force status 'partial'."""
import json, re, glob, os
root = os.path.dirname(os.path.dirname(os.path.abspath(__file__)))
names = {}
for f in sorted(glob.glob(root + '/rocq/theories/**/*.v', recursive=True)):
    for m in re.finditer(r'^\s*Theorem\s+(C\d\d\d?)_(\w+)', open(f).read(), re.M):
        names.setdefault(m.group(1), []).append(m.group(1) + '_' + m.group(2))
notes = json.load(open(root + '/tools/notes.json'))
ids = [json.loads(l)['id'] for l in open(root + '/properties.jsonl') if l.strip()]
claims = []
for i in ids:
    n = notes.get(i)
    t = names.get(i, [])
    if not t:
        claims.append({"property": i, "status": "not_applicable" if n and n[0] == "not_applicable" else "partial",
                       "theorems": [], "note": n[1] if n else "not modelled yet"})
        continue
    st = n[0] if n else ("partial" if any(x.endswith('_refuted') or x.endswith('_partial') for x in t) else "proved")
    claims.append({"property": i, "status": st, "theorems": t, "note": n[1] if n else ""})
json.dump({"claims": claims}, open(root + '/MANIFEST.json', 'w'), indent=1)
print({s: sum(c['status'] == s for c in claims) for s in ('proved', 'partial', 'not_applicable')},
      [c['property'] for c in claims if not c['theorems']])
