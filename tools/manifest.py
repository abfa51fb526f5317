#!/usr/bin/env python3
"""Rebuild MANIFEST.json from the theorem names in Properties*.v.

A property is "partial" when one of its theorems ends in _partial or
_refuted, or when it is listed in INCOMPLETE; "proved" otherwise."""
import glob, json, re, os
root = os.path.dirname(os.path.dirname(os.path.abspath(__file__)))
names = {}
for f in sorted(glob.glob(root + '/rocq/theories/Properties*.v')):
    for m in re.finditer(r'^Theorem (C\d\d+)_(\w+)', open(f).read(), re.M):
        names.setdefault(m.group(1), []).append(m.group(1) + '_' + m.group(2))
notes = json.load(open(root + '/tools/notes.json'))
claims = []
for l in open(root + '/properties.jsonl'):
    pid = json.loads(l)['id']
    ths = names.get(pid, [])
    n = notes.get(pid, {})
    if not ths:
        continue
    status = 'partial' if any(t.endswith(('_partial', '_refuted')) for t in ths) or n.get('incomplete') else 'proved'
    status = n.get('status', status)
    claims.append({'property': pid, 'status': status, 'theorems': ths, 'note': n.get('note', '')})
json.dump({'claims': claims}, open(root + '/MANIFEST.json', 'w'), indent=1)
for c in claims: print(c['property'], c['status'], len(c['theorems']))
