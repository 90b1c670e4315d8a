import json,re,math
from parse_util import split_args
exp=json.load(open('exp.json'))
txt=open('out.txt').read()
blocks=re.split(r'\n\s+: list \(list \(Z \* Z\)\)',txt)
def val(m,e):
    m=int(m);e=int(e)
    if e==9999: return float('nan')
    if e==7777: return 'PANIC'
    if e==9998: return m*float('inf')
    return math.ldexp(m,e)
def pf(s):
    s=s.strip().replace('_','')
    if 'result' in s: return 1234567.0
    if 'NAN' in s: return float('nan')
    return float(s)
bad=0;ok=0
for (n,e),b in zip(exp,blocks):
    rows=[]
    b=re.sub(r'\s+',' ',b.replace('%Z','')).replace('( ','(')
    for r in re.findall(r'\[((?:\(\(?-?\d+\)?, \(?-?\d+\)?\)(?:;\s*)?)+)\]',b):
        rows.append([val(m,x) for m,x in re.findall(r'\(\(?(-?\d+)\)?, \(?(-?\d+)\)?\)',r)])
    if rows==[['PANIC']]: print(n,'PANIC'); continue
    if any(x!=x and False for x in []): pass
    cols=list(zip(*rows)) if rows else []
    for v in e:
        if v[0].startswith('('):
            tv=[[pf(x) for x in split_args(y[1:-1])] for y in v]
            want=list(zip(*tv)); 
            got=cols
            pairs=list(zip(want,[[c] for c in got])) if len(want)==len(got) else None
        else:
            want=[[pf(x) for x in v]]; pairs=[(want[0],cols)]
        if pairs is None: print(n,'arity',len(want),len(cols)); bad+=1; continue
        for w,cs in pairs:
            best=None
            for c in cs:
                for st in range(0,len(c)-len(w)+1):
                    d=0
                    for x,y in zip(w,c[st:]):
                        if x!=x and y!=y: continue
                        if x!=x or y!=y: d=9e9;break
                        d=max(d,abs(x-y)/max(abs(x),1e-300) if x!=y else 0)
                    if best is None or d<best[0]: best=(d,st,len(c))
            if best is None or best[0]>0: print(n,'len',len(w),'best',best); bad+=1
            else: ok+=1
    if not e: pass
print('exact',ok,'other',bad)
