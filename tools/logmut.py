#!/usr/bin/env python3
"""Appends the results of a mutation batch to seeded/LOG.jsonl.

usage: logmut.py RESULT.json [TIGHTENED.json]

TIGHTENED.json maps an edit's id to {"tightened": [...], "note": "..."}.  An edit
already in the log is replaced."""
import json, os, sys
root = os.path.dirname(os.path.dirname(os.path.abspath(__file__)))
path = root + '/seeded/LOG.jsonl'
res = json.load(open(sys.argv[1]))['results']
tight = json.load(open(sys.argv[2])) if len(sys.argv) > 2 else {}
old = [json.loads(l) for l in open(path)] if os.path.exists(path) else []
by = {o['id']: o for o in old}
for r in res:
    t = tight.get(r['id'], {})
    e = {'id': r['id'], 'definition': r['def'], 'edit': r['edit'], 'claim': r['claim'],
         'failed': sorted(r['failed']), 'tightened': t.get('tightened', [])}
    if t.get('note'): e['note'] = t['note']
    by[r['id']] = e
with open(path, 'w') as f:
    for k in by: f.write(json.dumps(by[k], ensure_ascii=False) + '\n')
print(len(by), 'entries;', sum(not e['failed'] for e in by.values()), 'undetected')
