#!/usr/bin/env python3
"""Mutation test of the theorems: mutate.py WORKDIR SEED COUNT FILES... Makes small random edits in the definitions of the model
(in a scratch copy), rebuilds what depends on them and stops at the first proof that fails. Edits that no proof
notices are printed as SURVIVED: each is either harmless or shows a theorem that is too weak. Examples do not count."""
import json, os, random, re, subprocess, sys
SRC=os.environ.get('SEEDSRC','/tmp/frozen/rocq')
W=sys.argv[1]; rnd=random.Random(int(sys.argv[2])); N=int(sys.argv[3]); FILES=sys.argv[4:]
def sh(c): return subprocess.run(c,shell=True,capture_output=True,text=True)
files=[l.strip()[9:-2] for l in open(SRC+'/_CoqProject') if l.strip().startswith('theories/')]
deps={}
for f in files:
    s=open(f'{SRC}/theories/{f}.v').read(); r=set()
    for m in re.finditer(r'From Verif Require (?:Import |Export )?([^.]*)\.',s): r|=set(m.group(1).split())
    deps[f]=r
def strip_comments(s):
    out=list(s); d=0; i=0
    while i<len(s):
        if s.startswith('(*',i): d+=1; out[i]=out[i+1]=' '; i+=2; continue
        if s.startswith('*)',i) and d: d-=1; out[i]=out[i+1]=' '; i+=2; continue
        if d and s[i]!='\n': out[i]=' '
        i+=1
    return ''.join(out)
OPS=[(r'&&','||'),(r'\|\|','&&'),(r'\bnegb \(','('),(r'\bnegb ','id '),(r'\btrue\b','false'),(r'\bfalse\b','true'),(r'<\?','<=?'),(r'<=\?','<?'),
 (r'\bq0\b','q1'),(r'\bq1\b','q0'),(r'\bSome\b(?= \w+ =>)',None),(r'\bforallb\b','existsb'),(r'\bexistsb\b','forallb'),
 (r'\bAX\b','AY'),(r'\bAY\b','AX'),(r'\bAFill\b','AStroke'),(r'\bAStroke\b','AFill'),(r'\bAX1\b','AX2'),(r'\bAY2\b','AY1'),(r'\bACx\b','ACy'),(r'\bAR\b','ARx'),(r'\bAWidth\b','AHeight'),(r'\bd_rm (\w+) A\w+',r'id \1'),
 (r'\bEG\b','ESwitch'),(r'\bEDefs\b','EG'),(r'\bELinearGradient\b','ERadialGradient'),(r'\bEStop\b','ETspan'),(r'\bEClipPath\b','EMask'),
 (r'; ([AE]\w+)(?=[;\]])',''),(r'\| ([EA][A-Z]\w+) (?==>|\|)',''),(r'\b0\b','1'),(r'\b1\b','0'),(r'\b2\b','3'),(r'(\w+) \+ (\w+)',r'\1 - \2'),(r'(\w+) - (\w+)',r'\1 + \2'),
 (r'\bt_append (\w+) (\w+)\b',r't_append \2 \1'),(r'\brev \(','id ('),(r'\(attrs (\w+)\) ++ ',''),(r'\btl\b','id'),(r'\bremovelast\b','id'),(r'\bPanic\b','Ok')]
def sites(f):
    s=open(f'{SRC}/theories/{f}.v').read(); c=strip_comments(s); L=[]
    for m in re.finditer(r'^\s*(?:Definition|Fixpoint)\s+(\w+)',c,re.M):
        e=re.compile(r'\.\s*$',re.M).search(c,m.end())
        if not e: continue
        b=c.find(':=',m.end(),e.end())
        if b<0: continue
        if re.search(r':\s*Prop\s*$',c[m.end():b]): continue
        for pat,new in OPS:
            if new is None: continue
            for x in re.finditer(pat,c[b:e.end()]):
                i=b+x.start(); j=b+x.end(); n=x.expand(new) if '\\' in new else new
                L.append((f,m.group(1),i,j,n,s))
    return L
def base(names):
    return None
def mutate(site):
    f,d,i,j,n,s=site
    return s[:i]+n+s[j:]
def admit(f,line,p):
    L=open(p).read().split('\n'); i=line-1
    pat=re.compile(r'^\s*(?:#\[[^\]]*\]\s*)?(Lemma|Theorem|Corollary|Example|Remark|Fact|Definition|Fixpoint)\s+(\w+)')
    k=i
    while k>=0 and not pat.match(L[k]): k-=1
    if k<0: return (None,None)
    kind,name=pat.match(L[k]).groups()
    if kind!='Example' : return (kind,name)
    e=k
    while e<len(L) and not re.search(r'\b(Qed|Defined)\.\s*$',L[e]): e+=1
    txt='\n'.join(L[k:e+1]); m=re.search(r'\bProof\.',txt)
    L[k:e+1]=[txt[:m.start()]+'Admitted.']; open(p,'w').write('\n'.join(L)); return ('Example',name)
last=[]
def run(site):
    f=site[0]; sh(f'mkdir -p {W}; cp -au {SRC}/. {W}/' if not os.path.exists(W+'/_CoqProject') else 'true')
    for g in last: sh(f'cp -a {SRC}/theories/{g}.* {W}/theories/')
    last.clear()
    open(f'{W}/theories/{f}.v','w').write(mutate(site))
    changed={f}
    for g in files:
        if deps[g]&changed: changed.add(g)
    ex=[]
    for g in files:
        if g not in changed: continue
        last.append(g)
        while True:
            r=sh(f'cd {W} && timeout 600 coqc -Q theories Verif theories/{g}.v')
            if r.returncode==0: break
            m=re.search(r'line (\d+), characters',r.stderr)
            if not m: return ('?',g,r.stderr[-200:])
            kind,name=admit(g,int(m.group(1)),f'{W}/theories/{g}.v')
            if kind=='Example': ex.append(name); continue
            if kind in ('Definition','Fixpoint') and g==f: return ('invalid',name)
            return ('killed',g,name)
    return ('SURVIVED',ex)
os.makedirs(W,exist_ok=True)
per={}
for f in FILES:
    for s in sites(f): per.setdefault((f,s[1]),[]).append(s)
ks=list(per); rnd.shuffle(ks); n=0
while n<N and ks:
    for k in list(ks):
        if n>=N: break
        if not per[k]: ks.remove(k); continue
        st=per[k].pop(rnd.randrange(len(per[k])))
        r=run(st); s=st[5]; a=s.rfind('\n',0,st[2])+1; b=s.find('\n',st[3])
        if r[0]=='invalid': continue
        n+=1
        print(json.dumps(dict(file=st[0],defn=st[1],pos=st[2],line=s[a:b].strip()[:160],old=s[st[2]:st[3]],new=st[4],col=st[2]-a,res=r)),flush=True)
