#!/usr/bin/env python3
import re,os,sys,random,subprocess,shutil,json,time
BASE='/tmp/mut/base/rocq/theories'
proj=[l.strip()[9:-2] for l in open('/tmp/mut/base/rocq/_CoqProject') if l.startswith('theories/')]
txt={f:open(f'{BASE}/{f}.v').read() for f in proj}
def strip(t):
    # blank comments, keep offsets
    out=list(t); d=0;i=0
    while i<len(t):
        if t.startswith('(*',i): d+=1; out[i]=out[i+1]=' '; i+=2; continue
        if t.startswith('*)',i) and d>0: d-=1; out[i]=out[i+1]=' '; i+=2; continue
        if d>0 and t[i]!='\n': out[i]=' '
        i+=1
    return ''.join(out)
clean={f:strip(t) for f,t in txt.items()}
deps={}
for f in proj:
    ds=set()
    for m in re.finditer(r'From Verif Require (?:Import|Export) ([^.]*)\.',clean[f]): ds|=set(m.group(1).split())
    deps[f]={d for d in ds if d in txt}
def dependents(f):
    r={f}
    for g in proj:
        if deps[g]&r: r.add(g)
    return [g for g in proj if g in r]
ITEM=re.compile(r'^\s*(?:Local |Global |#\[[^\]]*\] *)*(Definition|Fixpoint|Lemma|Theorem|Example|Corollary|Record|Inductive|Notation|Instance|Section|End|From|Ltac|Remark|Fact)\b\s*(\S*)',re.M)
def items(f):
    ms=list(ITEM.finditer(clean[f])); r=[]
    for i,m in enumerate(ms):
        e=ms[i+1].start() if i+1<len(ms) else len(clean[f])
        r.append((m.group(1),m.group(2).rstrip(':'),m.start(),e))
    return r
# usage graph
body={}
for f in proj:
    for k,n,a,b in items(f):
        if n: body.setdefault(n,'') ; body[n]+=clean[f][a:b]
TOK=re.compile(r"[A-Za-z_][A-Za-z0-9_']*")
uses={n:set(TOK.findall(b))-{n} for n,b in body.items()}
rev={}
for n,s in uses.items():
    for x in s:
        if x in body: rev.setdefault(x,set()).add(n)
def reach(n):
    seen={n};st=[n]
    while st:
        x=st.pop()
        for y in rev.get(x,()):
            if y not in seen: seen.add(y);st.append(y)
    return sorted(x for x in seen if re.match(r'C\d\d_',x))
OPS=[(r'\bNat\.ltb\b','Nat.leb'),(r'\bNat\.leb\b','Nat.ltb'),(r'<\?','<=?'),(r'<=\?','<?'),(r'\bZ\.ltb\b','Z.leb'),(r'\bZ\.leb\b','Z.ltb'),
(r'\bRlt_bool\b','Rle_bool'),(r'\bRle_bool\b','Rlt_bool'),(r' \+ 1\b',' + 2'),(r' - 1\b',' - 2'),(r' \+ ',' - '),(r' - ',' + '),(r' \* ',' + '),
(r'&&','||'),(r'\|\|','&&'),(r'\bnegb \(','('),(r'\btrue\b','false'),(r'\bfalse\b','true'),(r'\bNat\.max\b','Nat.min'),(r'\bNat\.min\b','Nat.max'),
(r'\bRmax\b','Rmin'),(r'\bRmin\b','Rmax'),(r'\bZ\.max\b','Z.min'),(r'\bZ\.min\b','Z.max'),(r'\bfst\b','snd'),(r'\bsnd\b','fst'),(r'\bfirstn\b','skipn'),(r'\bskipn\b','firstn'),
(r'(?<![\w.%])0(?![\w.])','1'),(r'(?<![\w.%])1(?![\w.])','2'),(r'(?<![\w.%])2(?![\w.])','3'),(r'(?<![\w.%])3(?![\w.])','2'),(r'(?<![\w.%])4(?![\w.])','5'),
(r'\b([a-z]+)0\b',r'\g<1>1'),(r'\b([a-z]+)1\b',r'\g<1>0'),(r'\b([a-z]+)2\b',r'\g<1>1'),(r'\b([a-z_]+)x\b',r'\g<1>y'),(r'\b([a-z_]+)y\b',r'\g<1>x'),
(r'\bNat\.eqb\b','Nat.leb'),(r' \+\+ \[[^\[\]]*\]',''),(r'\bS \(',' ('),(r'\bNone\b','(Some 0)'),(r'\bfilter\b','filter'),(r'\bZfloor\b','Zceil'),(r'\bZceil\b','Zfloor'),(r'\bZ\.div\b','Z.quot'),(r'\bforallb\b','existsb'),(r'\bexistsb\b','forallb')]
OPS=[o for o in OPS if o[0]!=r'\bfilter\b']
def mutants(f,K,rng):
    res=[]
    for k,n,a,b in items(f):
        if k not in('Definition','Fixpoint'): continue
        c=clean[f]; p=c.find(':=',a,b)
        if p<0: continue
        cand=[]
        for pat,rep in OPS:
            for m in re.finditer(pat,c[p+2:b]):
                s=p+2+m.start();e=p+2+m.end()
                cand.append((s,e,m.expand(rep) if '\\' in rep else rep))
        rng.shuffle(cand)
        res.append((n,cand,K,a,b))
    return res
def run(work,f,new,timeout=400):
    d=f'/tmp/mut/{work}'
    shutil.rmtree(d,ignore_errors=True)
    subprocess.run(['cp','-al',BASE,d],check=True)
    fs=dependents(f)
    for g in fs:
        for x in('.vo','.vok','.vos','.glob'):
            try: os.unlink(f'{d}/{g}{x}')
            except FileNotFoundError: pass
        try: os.unlink(f'{d}/.{g}.aux')
        except FileNotFoundError: pass
    os.unlink(f'{d}/{f}.v'); open(f'{d}/{f}.v','w').write(new)
    for g in fs:
        try: p=subprocess.run(['coqc','-q','-Q','.','Verif',g+'.v'],cwd=d,capture_output=True,text=True,timeout=timeout)
        except subprocess.TimeoutExpired: return ('timeout',g,None,'')
        if p.returncode:
            m=re.search(r'File "\./'+g+r'\.v", line (\d+), characters[^\n]*\nError',p.stderr)
            ln=int(m.group(1)) if m else 0
            t=open(f'{d}/{g}.v').read().split('\n'); off=sum(len(x)+1 for x in t[:ln-1]) if ln else 0
            name=None
            if g!=f:
                for k,n,a,b in items(g):
                    if a<=off+1: name=n
                    else: break
            return ('invalid' if g==f or g.startswith('S_') else 'killed',g,name,p.stderr[-300:])
    return ('survived',None,None,'')
if __name__=='__main__':
    work,K,seed=sys.argv[1],int(sys.argv[2]),int(sys.argv[3]); files=sys.argv[4:]
    rng=random.Random(seed)
    out=open(f'/tmp/mut/res_{work}.jsonl','a')
    for f in files:
        for n,cand,K_,a,b in mutants(f,K,rng):
            done=0
            for s,e,rep in cand[:K*4]:
                if done>=K: break
                old=txt[f]; new=old[:s]+rep+old[e:]
                t0=time.time(); r=run(work,f,new)
                ls=old.rfind('\n',0,s)+1; le=old.find('\n',s)
                rec=dict(file=f,defn=n,old=old[ls:le].strip(),new=(old[ls:s]+rep+old[e:old.find('\n',e)]).strip(),op=[old[s:e],rep],res=r[0],at=r[1],lemma=r[2],err=r[3] if r[0]=='invalid' else '',t=round(time.time()-t0,1))
                if r[0]=='killed': rec['theorems']=reach(r[2]) if r[2] else []
                out.write(json.dumps(rec)+'\n'); out.flush()
                if r[0]!='invalid': done+=1
