#!/usr/bin/env python3
"""Regenerate MANIFEST.json from the theorem names in theories/Prop*.v."""
import re, glob, json, os
root = os.path.dirname(os.path.dirname(os.path.abspath(__file__)))
NOTES = json.load(open(os.path.join(root, 'tools', 'notes.json')))
thms = {}
for f in sorted(glob.glob(os.path.join(root, 'rocq/theories/Prop*.v'))):
    for m in re.finditer(r'^Theorem ((C\d+)_\w+)', open(f).read(), re.M):
        thms.setdefault(m.group(2), []).append(m.group(1))
props = [json.loads(l)['id'] for l in open(os.path.join(root, 'properties.jsonl'))]
claims = []
for p in props:
    t = thms.get(p, [])
    n = NOTES.get(p, {})
    if isinstance(n, str): n = {'note': n}
    if not t:
        st = n.get('status', 'partial')
        if st != 'not_applicable':
            continue
    elif any(x.endswith('_partial') or x.endswith('_refuted') for x in t):
        st = 'partial'
    else:
        st = n.get('status', 'proved')
    claims.append({'property': p, 'status': st, 'theorems': t, 'note': n.get('note', '')})
json.dump({'claims': claims}, open(os.path.join(root, 'MANIFEST.json'), 'w'), indent=1)
print(len(claims), 'claims;', len(props), 'properties;', sum(len(c['theorems']) for c in claims), 'theorems')
