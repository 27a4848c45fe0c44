#!/usr/bin/env python3
"""Regenerate MANIFEST.json from the theorem names in rocq/theories/Props*.v.

A property whose theorems include one ending in _refuted or _partial is 'partial',
otherwise 'proved'.  Notes live in tools/notes.json."""
import json, re, glob, os
root = os.path.dirname(os.path.dirname(os.path.abspath(__file__)))
props = [json.loads(l) for l in open(root + '/properties.jsonl') if l.strip()]
notes = json.load(open(root + '/tools/notes.json'))
thms = {}
for f in sorted(glob.glob(root + '/rocq/theories/Props*.v')):
    for m in re.finditer(r'^Theorem (C(\d+)_\w+)', open(f).read(), re.M):
        thms.setdefault('C' + m.group(2), []).append(m.group(1))
claims = []
for p in props:
    t = thms.get(p['id'], [])
    n = notes.get(p['id'], {})
    if not t:
        st = n.get('status', 'partial')
    elif any(x.endswith(('_refuted', '_partial')) for x in t):
        st = 'partial'
    else:
        st = 'proved'
    st = n.get('status', st)
    claims.append({'property': p['id'], 'status': st, 'theorems': t,
                   'note': n.get('note', p['title'])})
claims = [c for c in claims if c['theorems'] or c['status'] == 'not_applicable']
json.dump({'claims': claims}, open(root + '/MANIFEST.json', 'w'), indent=1)
print(len(claims), 'claims;', sum(len(c['theorems']) for c in claims), 'theorems; missing:',
      [p['id'] for p in props if p['id'] not in [c['property'] for c in claims]])
