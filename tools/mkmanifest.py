#!/usr/bin/env python3
"""Rebuild MANIFEST.json: every Theorem named Cnn_* in rocq/theories belongs to property Cnn."""
import json, re, glob, os
root = os.path.dirname(os.path.dirname(os.path.abspath(__file__)))
notes = json.load(open(os.path.join(root, 'tools', 'status.json')))
props = [json.loads(l)['id'] for l in open(os.path.join(root, 'properties.jsonl'))]
th = {p: [] for p in props}
for f in sorted(glob.glob(os.path.join(root, 'rocq/theories/*.v'))):
    for m in re.finditer(r'^\s*(?:Theorem|Corollary)\s+(C\d\d)_([A-Za-z0-9_\']+)', open(f).read(), re.M):
        th[m.group(1)].append(m.group(1) + '_' + m.group(2))
claims = []
for p in props:
    st, note = notes.get(p, [None, ''])
    if st is None:
        if not th[p]:
            continue
        st = 'proved'
    claims.append({'property': p, 'status': st, 'theorems': th[p], 'note': note})
json.dump({'claims': claims}, open(os.path.join(root, 'MANIFEST.json'), 'w'), indent=1)
print(sum(len(v) for v in th.values()), 'theorems;', [p for p in props if not th[p]], 'uncovered')
