#!/usr/bin/env python3
"""Generate MANIFEST.json: theorem names are collected from the Props files, status and notes are below."""
import re, json, glob, os
root = os.path.join(os.path.dirname(__file__), '..')
thms = {}
files = [l.strip() for l in open(os.path.join(root, 'rocq/_CoqProject')) if l.strip().startswith('theories/Props')]
for f in files:
    for m in re.finditer(r'^Theorem (C(\d\d)_\w+)', open(os.path.join(root, 'rocq', f)).read(), re.M):
        thms.setdefault('C' + m.group(2), []).append(m.group(1))
ns = {}
exec(open(os.path.join(os.path.dirname(__file__), 'status.py')).read(), ns)
claims = []
for l in open(os.path.join(root, 'properties.jsonl')):
    p = json.loads(l)['id']
    st, note = ns['status'].get(p, (None, None))
    if st is None and p not in thms: continue
    if st is None: st, note = 'partial', ''
    claims.append({"property": p, "status": st, "theorems": thms.get(p, []), "note": note})
    if st == 'proved': assert any(not t.endswith('_partial') and not t.endswith('_refuted') for t in thms.get(p, [])), p
with open(os.path.join(root, 'MANIFEST.json'), 'w') as f:
    f.write('{"claims": [\n' + ',\n'.join(' ' + json.dumps(c) for c in claims) + '\n]}\n')
print(len(claims), 'claims;', 'missing:', [json.loads(l)['id'] for l in open(os.path.join(root, 'properties.jsonl')) if json.loads(l)['id'] not in [c['property'] for c in claims]])
