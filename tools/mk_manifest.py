#!/usr/bin/env python3
"""Regenerate MANIFEST.json: collects the property theorems cNN_* from rocq/theories/Props*.v."""
import re, json, glob, os
root = os.path.dirname(os.path.dirname(os.path.abspath(__file__)))
notes = json.load(open(os.path.join(root, 'tools', 'notes.json')))
thms = {}
for f in sorted(glob.glob(os.path.join(root, 'rocq/theories/Props*.v'))):
    for m in re.finditer(r'^Theorem (c(\d{2,3})_\w+)', open(f).read(), re.M):
        thms.setdefault('C' + m.group(2), []).append(m.group(1))
claims = []
for l in open(os.path.join(root, 'properties.jsonl')):
    i = json.loads(l)['id']
    if i not in thms: 
        if i in notes and notes[i].get('status') == 'not_applicable':
            claims.append({'property': i, 'status': 'not_applicable', 'theorems': [], 'note': notes[i]['note']})
        continue
    st = notes.get(i, {}).get('status', 'proved')
    claims.append({'property': i, 'status': st, 'theorems': thms[i], 'note': notes.get(i, {}).get('note', '')})
json.dump({'claims': claims}, open(os.path.join(root, 'MANIFEST.json'), 'w'), indent=1)
print({c['property']: (c['status'], len(c['theorems'])) for c in claims})
