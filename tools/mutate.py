#!/usr/bin/env python3
"""Tests the theorems against wrong programs.

usage: mutate.py BATCH.json [SCRATCH]

BATCH.json is a list of {"id", "file", "old", "new", "def", "edit", "claim", "idents"}:
in theories/FILE the text OLD (which must occur exactly once) becomes NEW.  All edits
of a batch are made in one scratch copy; they must touch functions that do not call
one another.  Every file is then recompiled; a proof that fails is recorded and
replaced by Admitted, so that the remaining ones are still tried.  A theorem counts as
failed for an edit when it is about one of IDENTS (default: the function edited) and
its own proof fails or Print Assumptions shows that it rests on one that did.
Result: SCRATCH/result.json."""
import concurrent.futures as cf, json, os, re, shutil, resource, subprocess, sys, threading, time, signal
root = os.path.dirname(os.path.dirname(os.path.abspath(__file__)))
KIND = r'(?:Local\s+|Global\s+|#\[[^\]]*\]\s*)?(?:Theorem|Lemma|Corollary|Proposition|Fact|Remark|Example|Definition|Instance|Program\s+\w+|Fixpoint)'

def sentences(s):
    """(start, end) of each sentence."""
    out, i, n, st, depth = [], 0, len(s), 0, 0
    while i < n:
        if s.startswith('(*', i): depth += 1; i += 2; continue
        if depth and s.startswith('*)', i): depth -= 1; i += 2; continue
        if depth: i += 1; continue
        if s[i] == '"':
            i = s.index('"', i + 1) + 1; continue
        if s[i] == '.' and (i + 1 == n or s[i + 1].isspace()) and s[i - 1] != '.':
            out.append((st, i + 1)); st = i + 1
        i += 1
    return out

def bare(t):
    """text without comments, stripped"""
    r, i, d = '', 0, 0
    while i < len(t):
        if t.startswith('(*', i): d += 1; i += 2
        elif d and t.startswith('*)', i): d -= 1; i += 2
        else:
            if not d: r += t[i]
            i += 1
    return r.strip()

def chunks(s):
    """list of (name or None, statement text, proof text)"""
    ss = sentences(s); out = []; k = 0
    txt = [s[a:b] for a, b in ss]; bt = [bare(t) for t in txt]
    while k < len(ss):
        if k + 1 < len(ss) and re.match(r'Proof\b', bt[k + 1]):
            e = k + 1
            while not re.match(r'(?:[-+*{}\s]*)(Qed|Defined|Admitted|Abort)\s*\.$', bt[e]): e += 1
            m = re.match(KIND + r"\s+([\w']+)", bt[k])
            out.append((m.group(1) if m else '?', txt[k], ''.join(txt[k + 1:e + 1]))); k = e + 1
        else:
            out.append((None, txt[k], '')); k += 1
    return out

def small():
    """an edited definition may make a proof script use any amount of memory"""
    resource.setrlimit(resource.RLIMIT_AS, (4 << 30, 4 << 30))

class Top:
    def __init__(self, th):
        self.p = subprocess.Popen(['coqtop', '-q', '-Q', th, 'Verif'], stdin=subprocess.PIPE, stdout=subprocess.PIPE, stderr=subprocess.STDOUT, text=True, bufsize=1, preexec_fn=small)
        self.k = 0
    def send(self, t, limit=240):
        self.k += 1; mark = 'zzsync%d' % self.k
        stop = [False]
        def watch():
            t0 = time.time()
            while not stop[0]:
                time.sleep(1)
                if time.time() - t0 > limit and not stop[0]:
                    self.p.send_signal(signal.SIGINT); time.sleep(1)
        th = threading.Thread(target=watch, daemon=True); th.start()
        def w():
            try: self.p.stdin.write(t + '\nAbout %s.\n' % mark); self.p.stdin.flush()
            except BrokenPipeError: pass
        wt = threading.Thread(target=w, daemon=True); wt.start()
        out = ''
        for line in self.p.stdout:
            if mark in line and 'not a defined' in line: break
            out += line
        stop[0] = True; wt.join()
        out = re.sub(r'Toplevel input, characters \d+-\d+:\n> About zzsync\d+\.\n>\s*\^+\nError:\s*$', '', out)
        return [m.group(0) for m in re.finditer(r'Error:[^\n]*(?:\n[^\n]*)?', out)]

def failures(th, s):
    top = Top(th); bad = []
    for name, st, pf in chunks(s):
        e = top.send(st + pf)
        if e:
            if name is None: bad.append(('!', bare(st)[:200], e[0])); continue
            top.send('Admitted.')
            bad.append((name, None, e[0]))
    top.p.stdin.close(); top.p.kill()
    return bad

def patch(s, names):
    out = ''
    for name, st, pf in chunks(s):
        out += st + (' Proof. Admitted.' if name in names else pf)
    return out + '\n'

def coqc(th, f, lim=1200):
    return subprocess.run(['timeout', str(lim), 'coqc', '-q', '-w', '-all', '-Q', th, 'Verif', '%s/%s.v' % (th, f)], capture_output=True, text=True, preexec_fn=small)

def build(th, f, log):
    r = coqc(th, f)
    if r.returncode == 0: return []
    s = open('%s/%s.v' % (th, f)).read()
    bad = failures(th, s)
    hard = [b for b in bad if b[0] == '!']
    names = {b[0] for b in bad if b[0] != '!'}
    for _ in range(12):
        open('%s/%s.v' % (th, f), 'w').write(patch(s, names))
        r = coqc(th, f)
        if r.returncode == 0: return bad
        m = re.search(r'line (\d+), characters', r.stderr)
        if not m: break
        ps = open('%s/%s.v' % (th, f)).read(); pos = len('\n'.join(ps.split('\n')[:int(m.group(1)) - 1])) + 1
        acc, hit = 0, None
        for name, st, pf in chunks(ps):
            acc += len(st) + len(pf)
            if acc > pos: hit = name; break
        if hit is None or hit in names: break
        names.add(hit); bad.append((hit, None, r.stderr[-300:]))
    bad.append(('!', f, r.stderr[-600:]))
    return bad

def main():
    batch = json.load(open(sys.argv[1])); scratch = sys.argv[2] if len(sys.argv) > 2 else '/tmp/mut'
    src = root + '/rocq/theories'; th = scratch + '/theories'
    shutil.rmtree(scratch, ignore_errors=True); os.makedirs(th)
    for f in os.listdir(src):
        if f.endswith('.v'): shutil.copy(src + '/' + f, th)
    for m in batch:
        p = '%s/%s.v' % (th, m['file']); s = open(p).read()
        n = s.count(m['old'])
        if n != 1: sys.exit('%s: %r occurs %d times in %s' % (m['id'], m['old'], n, m['file']))
        open(p, 'w').write(s.replace(m['old'], m['new']))
    files = [l.strip()[9:-2] for l in open(root + '/rocq/_CoqProject') if l.startswith('theories/') and not l.startswith('theories/Case')]
    dep = subprocess.run(['coqdep', '-Q', th, 'Verif'] + ['%s/%s.v' % (th, f) for f in files], capture_output=True, text=True).stdout
    deps = {}
    for line in dep.splitlines():
        a, _, b = line.partition(':'); m = re.match(r'\S*/(\w+)\.vo\b', a)
        if m: deps[m.group(1)] = {x for x in re.findall(r'/(\w+)\.vo\b', b)}
    done, running, bad = set(), {}, {}
    with cf.ThreadPoolExecutor(4) as ex:
        while len(done) < len(files):
            for f in files:
                if f not in done and f not in running and deps[f] <= done: running[f] = ex.submit(build, th, f, None)
            ready, _ = cf.wait(running.values(), return_when=cf.FIRST_COMPLETED)
            for f in [f for f in running if running[f] in ready]:
                bad[f] = running.pop(f).result(); done.add(f)
                if bad[f]: print(f, [b[0] for b in bad[f]], flush=True)
                for b in bad[f]:
                    if b[0] == '!': print('  HARD', b, flush=True)
    failed = {b[0]: f for f in bad for b in bad[f] if b[0] != '!'}
    # theorems about an edited function
    man = {t for c in json.load(open(root + '/MANIFEST.json'))['claims'] for t in c['theorems']}
    texts, where = {}, {}
    for f in files:
        for name, st, pf in chunks(open('%s/%s.v' % (src, f)).read()):
            if name and name not in texts: texts[name] = bare(st); where[name] = f
    about = {m['id']: [t for t in man if t in texts and any(re.search(r"(?<![\w'])%s(?![\w'])" % re.escape(i), texts[t]) or t.startswith(i + '_') for i in m.get('idents') or [m['def']])] for m in batch}
    todo = sorted({t for v in about.values() for t in v})
    rests = {}
    def pa(part):
        k, ts = part
        p = '%s/pa%d.v' % (scratch, k)
        open(p, 'w').write(''.join('From Verif Require %s.\n' % w for w in sorted({where[t] for t in ts})) +
            ''.join('Goal True. idtac "@@ %s". exact I. Qed.\nPrint Assumptions %s.%s.\n' % (t, where[t], t) for t in ts))
        r = subprocess.run(['coqc', '-q', '-w', '-all', '-Q', th, 'Verif', p], capture_output=True, text=True)
        if r.returncode: print('PA', r.stderr[-400:])
        return r.stdout
    parts = [(k, todo[k::4]) for k in range(4) if todo[k::4]]
    with cf.ThreadPoolExecutor(4) as ex:
        for o in ex.map(pa, parts):
            for seg in o.split('@@ ')[1:]:
                n, _, rest = seg.partition('\n')
                rests[n.strip()] = {x.split('.')[-1] for x in re.findall(r'^([\w.\']+)\s*:', rest.replace('Axioms:', ''), re.M)}
    res = []
    for m in batch:
        res.append({**m, 'failed': sorted(t for t in about[m['id']] if t in failed or rests.get(t, set()) & set(failed)),
                    'survived': sorted(t for t in about[m['id']] if t in rests and not (t in failed or rests[t] & set(failed)))})
        print(m['id'], m['def'], '| failed:', ' '.join(res[-1]['failed']) or 'NONE')
    json.dump({'results': res, 'failed_lemmas': failed, 'errors': {f: b for f, b in bad.items() if b}}, open(scratch + '/result.json', 'w'), indent=1)
if __name__ == "__main__": main()
