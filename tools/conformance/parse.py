import re,glob,json
def match_paren(s,i,o='(',c=')'):
    d=0
    for j in range(i,len(s)):
        if s[j] in '([{': d+=1
        elif s[j] in ')]}':
            d-=1
            if d==0: return j
    raise Exception
def split_args(a):
    out=[];d=0;cur=''
    for ch in a:
        if ch in '([{': d+=1
        if ch in ')]}': d-=1
        if ch==',' and d==0: out.append(cur.strip());cur=''
        else: cur+=ch
    if cur.strip(): out.append(cur.strip())
    return out
mods='smooth|momentum|trend|volatility|volume|correlation|distribution|regression'
tests=[]
for f in sorted(glob.glob('/repo/tests/*_test.rs')):
    s=open(f).read()
    s=re.sub(r'//[^\n]*','',s)
    for m in re.finditer(r'fn (test_\w+)\(\) \{(.*?)\n\}\n',s,re.S):
        body=re.sub(r'\s+',' ',m.group(2))
        stat='stat_' in f
        items=[]
        i=0
        pat=re.compile(r'(?:(?:%s)::)(\w+)\('%mods + (r'|\b(mse|rmse|mae|mape|smape|mda|mase|emae|kurtosis|skew|variance|std_dev|zscore|mad|cv|quantile|median|rank|approx_entropy|sample_entropy)\(' if stat else '') + r'|(vec!\[|&?\[(?=[\s\d(\-f]))')
        while True:
            mm=pat.search(body,i)
            if not mm: break
            if mm.group(mm.lastindex).endswith('['):
                st=mm.end()-1
                e=match_paren(body,st)
                items.append(('vec',body[st+1:e]))
                i=e+1
            else:
                nm=mm.group(1) or (mm.group(2) if stat else None)
                st=mm.end()-1
                e=match_paren(body,st)
                items.append(('call',nm,split_args(body[st+1:e]),mm.group(0)))
                i=e+1
        tests.append((f.split('/')[-1],m.group(1),items))
json.dump(tests,open('/tmp/conf/tests.json','w'))
for t in tests:
    print(t[0],t[1],[ (x[3],x[2]) if x[0]=='call' else 'V%d'%len(split_args(x[1])) for x in t[2]])
