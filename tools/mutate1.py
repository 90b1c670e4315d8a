#!/usr/bin/env python3
"""As mutate.py, but one edit at a time, for files that few others depend on.

usage: mutate1.py BATCH.json SCRATCH FACTS [FACTS ...]

FACTS are the files to recompile after each edit, in order; everything else is taken
from the built tree."""
import json, os, re, shutil, subprocess, sys
sys.path.insert(0, os.path.dirname(os.path.abspath(__file__)))
from mutate import root, chunks, build, coqc
src = root + '/rocq/theories'

def main():
    batch = json.load(open(sys.argv[1])); scratch, facts = sys.argv[2], sys.argv[3:]
    man = {t for c in json.load(open(root + '/MANIFEST.json'))['claims'] for t in c['theorems']}
    res, errors = [], {}
    for m in batch:
        th = scratch + '/theories'; shutil.rmtree(scratch + '/theories', ignore_errors=True); os.makedirs(th)
        again = [m['file']] + [f for f in facts if f != m['file']]
        for f in os.listdir(src):
            if f.endswith('.vo') and f[:-3] not in again: os.symlink(src + '/' + f, th + '/' + f)
        for f in again: shutil.copy('%s/%s.v' % (src, f), th)
        p = '%s/%s.v' % (th, m['file']); s = open(p).read()
        if s.count(m['old']) != 1: sys.exit('%s: %r occurs %d times' % (m['id'], m['old'], s.count(m['old'])))
        open(p, 'w').write(s.replace(m['old'], m['new']))
        bad = [b for f in again for b in build(th, f, None)]
        hard = [b for b in bad if b[0] == '!']; failed = {b[0] for b in bad} - {'!'}
        if hard: errors[m['id']] = hard; print(m['id'], 'HARD', hard[:2])
        ts = {f: [n for n, st, pf in chunks(open('%s/%s.v' % (src, f)).read()) if n in man] for f in again}
        pa = scratch + '/pa.v'
        open(pa, 'w').write(''.join('From Verif Require %s.\n' % f for f in again) + ''.join('Goal True. idtac "@@ %s". exact I. Qed.\nPrint Assumptions %s.%s.\n' % (t, f, t) for f in again for t in ts[f]))
        o = subprocess.run(['coqc', '-q', '-w', '-all', '-Q', th, 'Verif', pa], capture_output=True, text=True)
        if o.returncode: print('PA', o.stderr[-300:])
        f2 = set()
        for seg in o.stdout.split('@@ ')[1:]:
            n, _, rest = seg.partition('\n')
            if {x.split('.')[-1] for x in re.findall(r'^([\w.\']+)\s*:', rest.replace('Axioms:', ''), re.M)} & failed: f2.add(n.strip())
        res.append({**m, 'failed': sorted(f2 | (failed & man)), 'survived': []})
        print(m['id'], m['def'], '|', ' '.join(res[-1]['failed']) or 'NONE', flush=True)
    json.dump({'results': res, 'errors': errors}, open(scratch + '/result.json', 'w'), indent=1)
if __name__ == '__main__': main()
