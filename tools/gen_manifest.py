#!/usr/bin/env python3
"""Regenerate MANIFEST.json: theorem names are read from the Prop*.v files
(prefix Cnn_); status and notes from the table below."""
import glob, json, os, re
root = os.path.dirname(os.path.dirname(os.path.abspath(__file__)))
NOTES = json.load(open(os.path.join(root, 'tools', 'claims.json')))
thms = {}
for f in sorted(glob.glob(os.path.join(root, 'rocq/theories/Prop*.v'))):
    for m in re.finditer(r'^Theorem (C\d\d)(_\w+)', open(f).read(), re.M):
        thms.setdefault(m.group(1), []).append(m.group(1) + m.group(2))
ids = [json.loads(l)['id'] for l in open(os.path.join(root, 'properties.jsonl'))]
claims = []
for i in ids:
    st, note = NOTES.get(i, ['', ''])
    t = thms.get(i, [])
    if not t and not st:
        continue
    claims.append({'property': i, 'status': st or 'partial', 'theorems': t, 'note': note})
json.dump({'claims': claims}, open(os.path.join(root, 'MANIFEST.json'), 'w'), indent=1)
print(len(claims), 'claims', sum(len(c['theorems']) for c in claims), 'theorems')
