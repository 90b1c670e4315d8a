#!/usr/bin/env python3
"""Rewrites the per-property table of DESIGN.md from properties.jsonl and MANIFEST.json."""
import json, os
root = os.path.dirname(os.path.dirname(os.path.abspath(__file__)))
props = {d['id']: d for d in map(json.loads, open(root + '/properties.jsonl'))}
claims = {c['property']: c for c in json.load(open(root + '/MANIFEST.json'))['claims']}
rows = []
for p in sorted(props, key=lambda x: int(x[1:])):
    c = claims[p]
    ts = c['theorems']
    rows.append('| %s | %s | %s | %s | %s |' % (p, props[p]['title'].replace('|', '/'), c['status'],
        ', '.join('`%s`' % t for t in ts[:6]) + (' and %d more' % (len(ts) - 6) if len(ts) > 6 else ''), c['note'] or 'Exact arithmetic.'))
s = open(root + '/DESIGN.md').read()
a, b = '<!-- table -->\n', '<!-- end table -->'
i, j = s.index(a) + len(a), s.index(b)
s = s[:i] + '| id | property | status | theorems | how / at which level |\n|---|---|---|---|---|\n' + '\n'.join(rows) + '\n' + s[j:]
open(root + '/DESIGN.md', 'w').write(s)
