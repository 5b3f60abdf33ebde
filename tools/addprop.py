#!/usr/bin/env python3
"""addprop.py: read JSON lines on stdin: either a property object (has 'title') or {"id":..,"status":..,"note":..}; update properties.jsonl / tools/notes.json"""
import json,sys
P='/verif/properties.jsonl'; N='/verif/tools/notes.json'
props=[json.loads(l) for l in open(P)]
notes=json.load(open(N))
for l in sys.stdin:
    l=l.strip()
    if not l: continue
    o=json.loads(l)
    if 'title' in o:
        props=[p for p in props if p['id']!=o['id']]+[o]
    else: notes[o['id']]=[o['status'],o['note']]
props.sort(key=lambda p:int(p['id'][1:]))
open(P,'w').write(''.join(json.dumps(p)+'\n' for p in props))
json.dump(notes,open(N,'w'),indent=0)
