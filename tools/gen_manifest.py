#!/usr/bin/env python3
"""Writes MANIFEST.json from the theorem names Cnn_* in rocq/theories/Prop*.v and the notes below."""
import re, json, glob, os
root = os.path.dirname(os.path.dirname(os.path.abspath(__file__)))
notes = json.load(open(os.path.join(root, 'tools', 'notes.json')))
ths = {}
for f in sorted(glob.glob(root + '/rocq/theories/Prop*.v')):
    for m in re.finditer(r'^ *(?:Theorem|Lemma|Corollary)\s+((C\d\d\d?)_\w+)', open(f).read(), re.M):
        ths.setdefault(m.group(2), []).append(m.group(1))
claims = []
for l in open(root + '/properties.jsonl'):
    p = json.loads(l)['id']
    n = notes.get(p, {})
    if p in ths:
        st = n.get('status') or ('partial' if any('_partial' in t for t in ths[p]) else 'proved')
        claims.append({'property': p, 'status': st, 'theorems': ths[p], 'note': n.get('note', '')})
    elif n.get('status') == 'not_applicable':
        claims.append({'property': p, 'status': 'not_applicable', 'theorems': [], 'note': n['note']})
    else:
        print('missing', p)
json.dump({'claims': claims}, open(root + '/MANIFEST.json', 'w'), indent=1)
print(len(claims), 'claims')
