#!/usr/bin/env python3
"""Writes ../MANIFEST.json from the theorem names Cnn_... in rocq/theories/*Props*.v and the notes below."""
import glob, json, os, re
here = os.path.dirname(os.path.abspath(__file__))
thms = {}
for f in sorted(glob.glob(os.path.join(here, '../rocq/theories/*Props*.v'))):
    for n in re.findall(r'^ *(?:Theorem|Corollary) ((C\d+)_\w+)', open(f).read(), re.M):
        thms.setdefault(n[1], []).append(n[0])
ids = [json.loads(l)['id'] for l in open(os.path.join(here, '../properties.jsonl'))]
NOTES = json.load(open(os.path.join(here, 'notes.json')))
claims = []
for i in ids:
    status, note = NOTES.get(i, [None, ''])
    t = thms.get(i, [])
    if status is None:
        if not t:
            continue
        status = 'partial' if any(x.endswith(('_partial', '_refuted')) for x in t) else 'proved'
    claims.append(dict(property=i, status=status, theorems=t, note=note))
json.dump(dict(claims=claims), open(os.path.join(here, '../MANIFEST.json'), 'w'), indent=1)
print(len(claims), 'claims;', sum(len(c['theorems']) for c in claims), 'theorems; missing:', [i for i in ids if i not in [c['property'] for c in claims]])
