#!/usr/bin/env python3
"""Runs Print Assumptions on every theorem of MANIFEST.json (needs a built tree;
optional argument: another theories directory) and prints each distinct set of
axioms with the number of theorems that rest on it; writes the list per theorem
to AXIOMS.txt."""
import collections, json, os, re, subprocess, sys, glob
root = os.path.dirname(os.path.dirname(os.path.abspath(__file__)))
th = sys.argv[1] if len(sys.argv) > 1 else root + '/rocq/theories'
names = sorted({t for c in json.load(open(root + '/MANIFEST.json'))['claims'] for t in c['theorems']})
where = {}
for f in sorted(glob.glob(th + '/*.v')):
    for m in re.finditer(r'^\s*(?:Theorem|Lemma|Corollary|Proposition|Fact|Remark)\s+([A-Za-z0-9_\']+)', open(f).read(), re.M):
        where.setdefault(m.group(1), os.path.basename(f)[:-2])
by = collections.defaultdict(list)
for n in names: by[where[n]].append(n)
sets = collections.defaultdict(list)
os.makedirs('/tmp/ax', exist_ok=True)
for mod in sorted(by):
    src = 'From Verif Require %s.\n' % mod + ''.join('Goal True. idtac "@@ %s". exact I. Qed.\nPrint Assumptions %s.%s.\n' % (n, mod, n) for n in by[mod])
    open('/tmp/ax/ax_%s.v' % mod, 'w').write(src)
    out = subprocess.run(['coqc', '-Q', th, 'Verif', '/tmp/ax/ax_%s.v' % mod], capture_output=True, text=True)
    if out.returncode: print(mod, out.stderr); sys.exit(1)
    for part in out.stdout.split('@@ ')[1:]:
        n, _, rest = part.partition('\n')
        ax = tuple(sorted(set(re.findall(r'^([A-Za-z_][\w.\']*)\s*:', rest.replace('Axioms:', ''), re.M))))
        sets[ax].append(mod + '.' + n.strip())
for ax in sorted(sets, key=lambda a: (len(a), a)):
    print(len(sets[ax]), 'theorems:', ', '.join(ax) or 'closed under the global context')
with open(root + '/AXIOMS.txt' if len(sys.argv) == 1 else '/tmp/ax/AXIOMS.txt', 'w') as o:
    for ax in sorted(sets, key=lambda a: (len(a), a)):
        o.write('# ' + (', '.join(ax) or 'closed under the global context') + '\n')
        for n in sorted(sets[ax]): o.write(n + '\n')
