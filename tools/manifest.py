#!/usr/bin/env python3
"""Regenerate MANIFEST.json: collect the theorems named Cnn_* from
rocq/theories/Prop_*.v and join them with the status and note of each property
in tools/claims.json."""
import json, re, glob, os
root = os.path.dirname(os.path.dirname(os.path.abspath(__file__)))
names = {}
for f in sorted(glob.glob(root + '/rocq/theories/Prop_*.v')):
    for m in re.finditer(r'^(?:Theorem|Lemma|Corollary)\s+((C\d\d)_\w+)', open(f).read(), re.M):
        names.setdefault(m.group(2), []).append(m.group(1))
notes = json.load(open(root + '/tools/claims.json'))
claims = []
for line in open(root + '/properties.jsonl'):
    i = json.loads(line)['id']
    if i in names:
        st, note = notes[i]
        claims.append({"property": i, "status": st, "theorems": names[i], "note": note})
    elif i in notes:
        st, note = notes[i]
        claims.append({"property": i, "status": st, "theorems": [], "note": note})
    else:
        print("no theorem yet:", i)
json.dump({"claims": claims}, open(root + '/MANIFEST.json', 'w'), indent=1)
