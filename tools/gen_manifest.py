#!/usr/bin/env python3
"""Write MANIFEST.json from the theorem names in rocq/theories and the notes below."""
import json, re, glob, os
root = os.path.join(os.path.dirname(__file__), '..')
notes = json.load(open(os.path.join(root, 'tools', 'notes.json')))
thms = {}
for f in open(os.path.join(root, 'rocq/_CoqProject')).read().split():
    if not f.startswith('theories/Prop'): continue
    for m in re.finditer(r'^\s*Theorem\s+(C\d\d)(\w+)', open(os.path.join(root, 'rocq', f)).read(), re.M):
        thms.setdefault(m.group(1), []).append(m.group(1) + m.group(2))
claims = []
for line in open(os.path.join(root, 'properties.jsonl')):
    if not line.strip(): continue
    i = json.loads(line)['id']
    status, note = notes.get(i, ['not_applicable', 'not modelled yet'])
    names = thms.get(i, [])
    if status == 'proved':
        assert names, i
    claims.append({'property': i, 'status': status if names else 'not_applicable', 'theorems': names, 'note': note})
json.dump({'claims': claims}, open(os.path.join(root, 'MANIFEST.json'), 'w'), indent=1)
print(len(claims), {s: sum(c['status'] == s for c in claims) for s in ('proved', 'partial', 'not_applicable')})
