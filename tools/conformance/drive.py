import json,re,math,subprocess,struct
tests=json.load(open('/tmp/conf/tests.json'))
from parse_util import split_args
def fl(v):
    v=float(v)
    if v==0: return '(fl 0 0)'
    m,e=math.frexp(v); return '(fl (%d) (%d))'%(int(m*2**53),e-53)
def lst(vs): return '['+'; '.join(fl(v) for v in vs)+']'
def serde(t):
    neg=t.startswith('-'); t=t.lstrip('-')
    if '.' not in t: return float(int(t))
    a,b=t.split('.')
    sig=int(a+b); r=float(sig)/float(10**len(b))
    return -r if neg else r
hdr='''From Coq Require Import ZArith List. Import ListNotations.
From Verif Require Import TestLibm B64 Distribution Regression Smooth Correlation Volume Volatility Trend Momentum.
From Flocq Require Import IEEE754.BinarySingleNaN.
#[local] Instance I : FOps f64 := B64 tlm.
Class Out (A:Type) := outs : A -> list (Z*Z).
#[local] Instance o1 : Out f64 := fun x => [out x].
#[local] Instance o2 {A B} `{Out A} `{Out B} : Out (A*B) := fun p => outs (fst p) ++ outs (snd p).
Definition prt {A} `{Out A} (r : result (list A)) : list (list (Z*Z)) := match r with Ok l => map outs l | Panic => [[(77,7777)]]%Z end.
Class Prt (A:Type) := prt' : A -> list (list (Z*Z)).
#[local] Instance p1 {A} `{Out A} : Prt (result (list A)) := prt.
#[local] Instance p2 {A} `{Out A} : Prt (list A) := fun l => prt (Ok l).
Definition lnret (l : list f64) := map (fun '(x,y) => fln (fdiv y x)) (combine l (skipn 1 l)).
Definition rets (l : list f64) := map (fun '(x,y) => fsub (fdiv y x) (flit 1 1)) (combine l (skipn 1 l)).
'''
for nm,f in (('stats','rddt'),('stats2','sp500')):
    d=json.load(open('/repo/tests/%s.input'%f),parse_float=serde)
    for k in d: hdr+='Definition %s_%s : list f64 := %s.\n'%(nm,k,lst(d[k]))
fnames={'volatility::std_dev(':'vstd_dev'}
oracle={'srcc':'stable_argsort','hoeffd':'stable_argsort','rank':'stable_argsort','mic':'(fun l => l)'}
floatargs={'kernel':[1],'alma':[2],'quantile':[2],'si':[4],'asi':[4],'supertrend':[4],'tvi':[2]}
consts={'c_win':'3','b_win':'7','lead_win':'13','lag_win':'7'}
def optarg(a,fn,i):
    inner=a[5:-1]
    if inner in('true','false'): return '(Some %s)'%inner
    if 'MaMode' in inner: return '(Some %s)'%inner.split('::')[-1]
    if 'RankMode' in inner: return '(Some R%s)'%inner.split('::')[-1]
    if inner.startswith('&['): return '(Some [%s]%%nat)'%inner[2:-1].replace(',',';')
    if '.' in inner: return '(Some %s)'%fl(inner)
    return '(Some %s%%nat)'%inner
calls=[]
for f,t,items in tests:
    vecs=[];local=None
    for k,x in enumerate(items):
        if x[0]=='vec':
            parts=split_args(x[1])
            if len(parts)>1:
                vecs.append(parts)
            continue
        _,fn,args,full=x
        ex=[]
        for i,a in enumerate(args):
            if a.startswith('&stats .close'): a='(lnret stats_close)'
            elif a.startswith('&ln_ret1'): a='(lnret stats_close)'
            elif a.startswith('&ln_ret2'): a='(lnret stats2_close)'
            elif a=='&rets': a='(rets stats_close)'
            elif a.startswith('&stats'): a=a[1:].replace('.','_')
            elif a=='&x': a=lst(range(-20,21))
            elif a=='&y' or a=='input': a=lst([v for v in vecs[-1 if a=='&y' else 0]])
            elif a=='y.len()': a='41%nat'
            elif a.startswith('&['): a=lst(split_args(a[2:-1]))
            elif a=='None': a='None'
            elif a.startswith('Some'): a=optarg(a,fn,i)
            elif 'MaMode' in a: a=a.split('::')[-1]
            elif a in consts: a=consts[a]+'%nat'
            elif fn in floatargs and i in floatargs[fn]: a=fl(a)
            else: a+='%nat'
            ex.append(a)
        name=fnames.get(full,fn)
        call='%s %s %s'%(name,oracle.get(fn,''),' '.join(ex))
        if fn=='hurst': call='match hurst 100 %s with Some r => r | None => Panic end'%' '.join(ex)
        if fn=='frama': call='match frama %s with Ok (Some r) => Ok r | _ => Panic end'%' '.join(ex)
        pass
        # expected: vecs after this call until next call (or before for rank)
        exp=[]
        for y in items[k+1:]:
            if y[0]=='call': break
            p=split_args(y[1])
            if len(p)>1: exp.append(p)
        calls.append((t+'/'+fn,call,exp))
src=hdr
for i,(n,c,e) in enumerate(calls):
    src+='Eval vm_compute in (%d, prt (%s))%%Z.\n'%(i,c) if False else 'Eval vm_compute in (prt\' (%s)).\n'%c
open('/tmp/conf/run.v','w').write(src)
json.dump([(n,e) for n,c,e in calls],open('/tmp/conf/exp.json','w'))
