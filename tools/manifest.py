#!/usr/bin/env python3
"""Regenerate MANIFEST.json from the theorem names C<nn>_* in rocq/theories/Props*.v."""
import json, re, glob, os
root = os.path.dirname(os.path.dirname(os.path.abspath(__file__)))
notes = json.load(open(os.path.join(root, 'tools', 'notes.json')))
props = [json.loads(l) for l in open(os.path.join(root, 'properties.jsonl'))]
th = {}
for f in sorted(glob.glob(os.path.join(root, 'rocq/theories/Props*.v'))):
    for m in re.finditer(r'^(?:Theorem|Lemma)\s+(C\d\d+(?:_C\d\d+)*)_(\w+)', open(f).read(), re.M):
        for pid in m.group(1).split('_'):
            th.setdefault(pid, []).append(m.group(1) + '_' + m.group(2))
claims = []
for p in props:
    i = p['id']
    t = th.get(i, [])
    bad = any('_refuted' in x or '_partial' in x for x in t)
    st = 'partial' if bad or not t else 'proved'
    n = notes.get(i, '')
    if not t and not n:
        n = 'not yet proved'
    claims.append({'property': i, 'status': st, 'theorems': t, 'note': n})
json.dump({'claims': claims}, open(os.path.join(root, 'MANIFEST.json'), 'w'), indent=1)
print(sum(c['status'] == 'proved' for c in claims), 'proved', sum(c['status'] == 'partial' for c in claims), 'partial',
      [c['property'] for c in claims if not c['theorems']])
