#!/usr/bin/env python3
"""Draws a batch of small edits of the model, one per definition, for mutate.py.

usage: genmut.py OUT.json PREFIX SEED [EXCLUDE.json ...]

Each edit changes one operator, comparison, constant, index or argument.  No edited
definition calls another one of the batch.  Edits that do not compile are dropped;
those in the EXCLUDE batches are not drawn again."""
import json, os, random, re, shutil, subprocess, sys, tempfile
sys.path.insert(0, os.path.dirname(os.path.abspath(__file__)))
from mutate import root, sentences, bare
MODEL = ['Distribution', 'Regression', 'Smooth', 'Correlation', 'Volume', 'Volatility', 'Trend', 'Momentum']
src = root + '/rocq/theories'

def defs():
    out = {}
    for f in MODEL:
        s = open('%s/%s.v' % (src, f)).read()
        for a, b in sentences(s):
            t = s[a:b]; k = len(t) - len(t.lstrip())
            m = re.search(r'(?:Definition|Fixpoint)\s+(\w+)', bare(t))
            if m and re.match(r'(?:Local\s+)?(Definition|Fixpoint)\b', bare(t)):
                p = t.index(m.group(0)); q = t.index(':=', p) + 2
                out[m.group(1)] = (f, a + q, b - 1, s[a + q:b - 1])
    return out

def edits(body):
    """(start, end, new, kind) inside body"""
    r = []
    def sub(pat, new, kind):
        for m in re.finditer(pat, body):
            n = new(m) if callable(new) else new
            if n is not None and n != m.group(0): r.append((m.start(), m.end(), n, kind))
    sub(r'(?<= )\+(?= )', '-', 'operator'); sub(r'(?<= )-(?= )', '+', 'operator')
    sub(r'(?<= )\*(?= )', '/', 'operator'); sub(r'(?<= )/(?= )', '*', 'operator')
    sub(r'<\?', '<=?', 'comparison'); sub(r'<=\?', '<?', 'comparison')
    sub(r'\bfmax\b', 'fmin', 'max/min'); sub(r'\bfmin\b', 'fmax', 'max/min')
    sub(r'\bmax_of\b', 'min_of', 'max/min'); sub(r'\bmin_of\b', 'max_of', 'max/min')
    sub(r'\bfst\b', 'snd', 'projection'); sub(r'\bsnd\b', 'fst', 'projection')
    sub(r'&&', '||', 'connective'); sub(r'\|\|', '&&', 'connective')
    sub(r'#(\d+)', lambda m: '#%d' % (int(m.group(1)) + 1), 'constant')
    sub(r'flit (\d+) (\d+)', lambda m: 'flit %d %s' % (int(m.group(1)) + 1, m.group(2)), 'constant')
    sub(r'(?<=usub )(\w+ )(\d)\b', lambda m: m.group(1) + str(int(m.group(2)) + 1), 'length')
    sub(r'(?<=[- +(])(?<!#)(\d)(?=[ )])', lambda m: str(int(m.group(1)) + 1), 'index')
    sub(r'\bhigh\b', 'low', 'argument'); sub(r'\blow\b', 'high', 'argument')
    sub(r'\bclose\b', 'high', 'argument'); sub(r'\bshort\b', 'long', 'argument'); sub(r'\blong\b', 'short', 'argument')
    sub(r'\bsma\b', 'ewma', 'average'); sub(r'\bewma\b', 'wilder', 'average'); sub(r'\bwilder\b', 'ewma', 'average')
    sub(r'\bfabs\b', 'fneg', 'function'); sub(r'\bfsqrt\b', 'fabs', 'function'); sub(r'\bfln\b', 'flog2', 'function'); sub(r'\bffloor\b', 'fceil', 'function')
    sub(r'\bpowi2\b', 'powi3', 'function'); sub(r'\bprev\b', 'curr', 'argument'); sub(r'\bcurr\b', 'prev', 'argument')
    return r

def main():
    out, prefix, seed = sys.argv[1], sys.argv[2], int(sys.argv[3])
    rnd = random.Random(seed); D = defs()
    seen = {(m['def'], m['old'], m['new']) for p in sys.argv[4:] for m in json.load(open(p))}
    done = {(m['def'], m.get('pos'), m.get('rep')) for p in sys.argv[4:] for m in json.load(open(p))}
    calls = {d: {e for e in D if e != d and re.search(r"(?<![\w'])%s(?![\w'])" % e, D[d][3])} for d in D}
    def reach(d, acc=None):
        acc = set() if acc is None else acc
        for e in calls[d]:
            if e not in acc: acc.add(e); reach(e, acc)
        return acc
    down = {d: reach(d) for d in D}; up = {d: {e for e in D if d in down[e]} for d in D}
    cnt = {}
    for p in sys.argv[4:]:
        for m in json.load(open(p)): cnt[m['def']] = cnt.get(m['def'], 0) + 1
    order = list(D); rnd.shuffle(order); order.sort(key=lambda d: cnt.get(d, 0) / max(1, len(edits(D[d][3]))))
    tmp = tempfile.mkdtemp(); texts = {f: open('%s/%s.v' % (src, f)).read() for f in MODEL}
    for f in os.listdir(src):
        if f.endswith('.vo') and f[:-3] in MODEL + ['Base', 'Num']: shutil.copy(src + '/' + f, tmp)
    def compiles(f, s):
        open('%s/%s.v' % (tmp, f), 'w').write(s)
        ok = subprocess.run(['timeout', '60', 'coqc', '-q', '-w', '-all', '-Q', tmp, 'Verif', '%s/%s.v' % (tmp, f)], capture_output=True).returncode == 0
        shutil.copy('%s/%s.vo' % (src, f), tmp); return ok
    batch, used = [], set()
    man = {t for c in json.load(open(root + '/MANIFEST.json'))['claims'] for t in c['theorems']}
    fam = {d: {e for e in {d} | up[d] if any(t.startswith(e + '_') for t in man)} for d in D}
    def apart(ds):   # every edited definition has a function of its own with theorems
        n = {}
        for d in ds:
            for e in fam[d]: n[e] = n.get(e, 0) + 1
        return all(any(n[e] == 1 for e in fam[d]) for d in ds)
    for d in order:
        if any(d in down[e] or e in down[d] for e in used) or not apart(used | {d}): continue
        f, a, b, body = D[d]
        es = [e for e in edits(body) if (d, e[0], e[2]) not in done]; rnd.shuffle(es)
        for st, en, new, kind in es[:6]:
            s = texts[f]; x, y = a + st, a + en
            l, r = x, y
            while s.count(s[l:r]) != 1: l = max(0, l - 6); r = min(len(s), r + 6)
            if any(m['file'] == f and (m['_x'] < r and l < m['_y']) for m in batch): continue
            if not compiles(f, s[:x] + new + s[y:]): continue
            batch.append({'id': '', 'file': f, 'old': s[l:r], 'new': s[l:x] + new + s[y:r], 'def': d, 'pos': st, 'rep': new, '_x': l, '_y': r,
                          'edit': '%s: %s becomes %s in "%s"' % (kind, body[st:en], new, re.sub(r'\s+', ' ', body[max(0, st - 40):en + 40]).strip()), 'claim': ''})
            used.add(d); break
    for k, m in enumerate(batch):
        m['id'] = '%s-%03d' % (prefix, k + 1); del m['_x'], m['_y']
        d = m['def']; other = set().union(*[up[e] for e in used if e != d]) if len(used) > 1 else set()
        m['idents'] = sorted({d} | (up[d] - other))
    json.dump(batch, open(out, 'w'), indent=1); shutil.rmtree(tmp)
    print(len(batch), 'edits of', len(D), 'definitions')
if __name__ == '__main__': main()
