#!/usr/bin/env python3
"""Writes MANIFEST.json from tools/claims.txt and checks that every theorem exists.

claims.txt: blocks "Cxx status | note", then indented theorem names; a name
may be a glob over all theorem names, those of model helpers apart (e.g. *_outcome)."""
import fnmatch, glob, json, os, re, sys
root = os.path.dirname(os.path.dirname(os.path.abspath(__file__)))
names = {}
helpers = set(k + '_' + s for s in ('outcome', 'causal', 'warm') for k in '''rmap zipwin zip_windows zip_i32 bar_pairs hlc_windows
  tail4 steps3 swing midpoints displaced rel_vol_pairs stc_raw stoch wilder_sum wma_weights entropy_tol aligned win_aligned
  rainbow_smas'''.split())
helpers |= set('sqrt_gap running_gap vol_index_holed fold_max_holed fold_min_holed max_of_holed min_of_holed sum_scale sum2_scale inr_scale mean_map_scale Rltb_scale Rleb_scale Req_scale wsum_scale Rsum_scale Rsum_map_scale aligned_shift near_shift wilder_from_shift st_shift Rsum_shift Rltb_shift Rleb_shift Req_shift sq_err_shift Rmax_shift Rmin_shift last_bars_shift'.split())
for f in sorted(glob.glob(root + '/rocq/theories/*.v')):
    if os.path.basename(f).startswith('Case'): continue
    for m in re.finditer(r'^\s*(?:Local |Global )?(?:Theorem|Lemma|Corollary|Proposition|Fact|Remark)\s+([A-Za-z0-9_\']+)', open(f).read(), re.M):
        names.setdefault(m.group(1), f)
claims, cur, bad = [], None, []
for line in open(root + '/tools/claims.txt'):
    if not line.strip() or line.startswith('#'): continue
    if not line[0].isspace():
        head, _, note = line.partition('|')
        pid, status = head.split()
        cur = {'property': pid, 'status': status, 'theorems': [], 'note': note.strip()}
        claims.append(cur)
    else:
        for t in line.split():
            ms = [n for n in names if fnmatch.fnmatchcase(n, t) and n not in helpers] if '*' in t else ([t] if t in names else [])
            if not ms: bad.append((cur['property'], t))
            for n in ms:
                if n not in cur['theorems']: cur['theorems'].append(n)
props = [json.loads(l)['id'] for l in open(root + '/properties.jsonl')]
missing = [p for p in props if p not in {c['property'] for c in claims}]
claims.sort(key=lambda c: int(c['property'][1:]))
json.dump({'claims': claims}, open(root + '/MANIFEST.json', 'w'), indent=1, ensure_ascii=False)
print('claims', len(claims), 'theorems', sum(len(c['theorems']) for c in claims), 'without claim:', ' '.join(missing))
if bad: print('UNKNOWN:', bad); sys.exit(1)
