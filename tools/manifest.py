#!/usr/bin/env python3
"""Write MANIFEST.json: the theorems of each property are those named Cnn_* in Props*.v; status
overrides and notes come from tools/notes.json."""
import json, re, glob, os
root = os.path.dirname(os.path.dirname(os.path.abspath(__file__)))
notes = json.load(open(f'{root}/tools/notes.json'))
thms = {}
for f in sorted(glob.glob(f'{root}/rocq/theories/Props*.v')):
    for m in re.finditer(r'^Theorem (C\d+)(_\w+)', open(f).read(), re.M):
        thms.setdefault(m.group(1), []).append(m.group(1) + m.group(2))
claims = []
for line in open(f'{root}/properties.jsonl'):
    p = json.loads(line)['id']
    n = notes.get(p, {})
    t = thms.get(p, [])
    if not t and n.get('status') != 'not_applicable': continue
    claims.append({'property': p, 'status': n.get('status', 'proved'), 'theorems': t, 'note': n.get('note', '')})
json.dump({'claims': claims}, open(f'{root}/MANIFEST.json', 'w'), indent=1)
print(len(claims), 'claims', sum(len(c['theorems']) for c in claims), 'theorems')
