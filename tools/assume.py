#!/usr/bin/env python3
"""Rewrite the last section of DESIGN.md from what Print Assumptions lists for
each property theorem (needs a finished build in rocq)."""
import json, os, re, subprocess, tempfile
here = os.path.dirname(os.path.dirname(os.path.abspath(__file__)))
th = os.path.join(here, 'rocq', 'theories')
claims = json.load(open(os.path.join(here, 'MANIFEST.json')))['claims']
where = {}
for f in sorted(os.listdir(th)):
    if f.endswith('.v') and 'Props' in f:
        for n in re.findall(r'^ *(?:Theorem|Corollary)\s+(C\d+\w*)', open(os.path.join(th, f)).read(), re.M):
            where[n] = f[:-2]
by = {}
for c in claims:
    for t in c['theorems']:
        by.setdefault(where[t], []).append(t)
ax = {}
for f, ts in by.items():
    with tempfile.TemporaryDirectory() as d:
        open(os.path.join(d, 'q.v'), 'w').write('From Verif Require %s.\n' % f + ''.join('Print Assumptions %s.%s.\n' % (f, t) for t in ts))
        out = subprocess.run(['coqc', '-Q', th, 'Verif', 'q.v'], cwd=d, capture_output=True, text=True)
        blocks = re.split(r'^(?=Closed under the global context|Axioms:)', out.stdout, flags=re.M)[1:]
        assert len(blocks) == len(ts), (f, out.stderr[-300:])
        for t, b in zip(ts, blocks):
            ax[t] = tuple(sorted(set(re.findall(r'^([\w.\']+)\s*:', b, re.M)) - {'Axioms'})) if b.startswith('Axioms') else ()
names = sorted({a for v in ax.values() for a in v})
short = {a: 'abcdefgh'[i] for i, a in enumerate(names)}
o = ['## What `Print Assumptions` lists for each theorem', '', 'Written by `tools/assume.py`. Axioms of the standard library that occur:', '']
for a in names: o.append('* (%s) `%s`' % (short[a], a))
o += ['', 'Theorems by the set of axioms they depend on ("none": closed under the global context):', '']
sets = {}
for c in claims:
    for t in c['theorems']: sets.setdefault(ax[t], []).append(t)
for s in sorted(sets, key=lambda s: (len(s), s)):
    o += ['* **%s**: ' % (', '.join(short[a] for a in s) or 'none') + ', '.join(sets[s]), '']
p = os.path.join(here, 'DESIGN.md')
s = open(p).read()
i = s.find('## What `Print Assumptions` lists')
s = (s if i < 0 else s[:i]).rstrip() + '\n\n' + '\n'.join(o).rstrip() + '\n'
open(p, 'w').write(s)
