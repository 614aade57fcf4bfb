#!/usr/bin/env python3
"""Regenerates MANIFEST.json from the theorem names in rocq/theories/Props_*.v.

A theorem named Cnn_... belongs to property Cnn.  A property with a theorem whose
name contains _refuted or _partial is reported as partial, otherwise as proved."""
import glob, json, os, re
root = os.path.dirname(os.path.dirname(os.path.abspath(__file__)))
names = {}
for f in sorted(glob.glob(os.path.join(root, 'rocq/theories/Props_*.v'))):
    for m in re.finditer(r'^Theorem (C(\d+)_\w+)', open(f).read(), re.M):
        names.setdefault('C' + m.group(2), []).append(m.group(1))
notes = json.load(open(os.path.join(root, 'tools/notes.json')))
claims = []
for line in open(os.path.join(root, 'properties.jsonl')):
    p = json.loads(line)
    ts = names.get(p['id'], [])
    if not ts:
        continue
    partial = any('_refuted' in t or t.endswith('_partial') for t in ts)
    note = notes.get(p['id'], '')
    claims.append({'property': p['id'], 'status': 'partial' if partial else 'proved', 'theorems': ts, 'note': note})
json.dump({'claims': claims}, open(os.path.join(root, 'MANIFEST.json'), 'w'), indent=1)
print(len(claims), sum(c['status'] == 'proved' for c in claims), 'proved', [c['property'] for c in claims if not c['note']])
