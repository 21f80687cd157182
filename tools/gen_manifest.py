#!/usr/bin/env python3
"""Collect the property theorems of rocq/theories/Prop*.v into MANIFEST.json."""
import glob, json, re
NOTES = json.load(open('/verif/tools/notes.json'))
thms = {}
for f in sorted(glob.glob('/verif/rocq/theories/Prop*.v')):
    for m in re.finditer(r'^(?:Theorem|Lemma)\s+(C\d\d)_(\w+)', open(f).read(), re.M):
        thms.setdefault(m.group(1), []).append(m.group(1) + '_' + m.group(2))
claims = []
for line in open('/verif/properties.jsonl'):
    p = json.loads(line)
    i = p['id']
    n = NOTES.get(i, {})
    ts = thms.get(i, [])
    status = n.get('status') or ('proved' if ts else 'partial')
    claims.append({'property': i, 'status': status, 'theorems': ts,
                   'note': n.get('note', '' if ts else 'not yet proved')})
json.dump({'claims': claims}, open('/verif/MANIFEST.json', 'w'), indent=1)
print(sum(1 for c in claims if c['theorems']), 'of', len(claims), 'properties have theorems')
