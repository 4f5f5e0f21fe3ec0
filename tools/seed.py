#!/usr/bin/env python3
"""Run seeded-bug experiments: seed.py edits.json [start]. Works in a scratch copy outside /verif.
Each edit: {"file": "Round.v", "def": "qround", "old": "...", "new": "...", "claim": "C19 ...", "tightened": []}.
Proofs that no longer check are replaced by Admitted in the scratch copy (there only), and the property
theorems that then rest on an admitted lemma are the ones reported as failed."""
import json, os, re, subprocess, sys
SRC=os.environ.get('SEEDSRC','/verif/rocq'); W=os.environ.get('SEEDDIR','/tmp/seedwork/rocq')
def sh(c): return subprocess.run(c,shell=True,capture_output=True,text=True)
def project():
    return [l.strip()[9:-2] for l in open(SRC+'/_CoqProject') if l.strip().startswith('theories/')]
def deps(files):
    d={}
    for f in files:
        s=open(f'{W}/theories/{f}.v').read(); r=set()
        for m in re.finditer(r'From Verif Require (?:Import |Export )?([^.]*)\.',s): r|=set(m.group(1).split())
        d[f]=r
    return d
def admit(f,line):
    p=f'{W}/theories/{f}.v'; L=open(p).read().split('\n'); i=line-1
    pat=re.compile(r'^\s*(?:#\[[^\]]*\]\s*)?(Lemma|Theorem|Corollary|Example|Remark|Fact)\s+(\w+)')
    j=i
    while j>=0 and not pat.match(L[j]): j-=1
    if j<0: return None
    name=pat.match(L[j]).group(2)
    # the proof ends at the first Qed./Defined. at or after the start
    k=j
    while k<len(L) and not re.search(r'\b(Qed|Defined)\.\s*$',L[k]): k+=1
    if k<i: return None
    txt='\n'.join(L[j:k+1]); m=re.search(r'\bProof\.',txt)
    if not m: return None
    new=txt[:m.start()]+'Admitted.'
    L[j:k+1]=[new]; open(p,'w').write('\n'.join(L)); return name
def run(e):
    sh(f'rm -rf {W}; mkdir -p {os.path.dirname(W)}; cp -a {SRC} {W}')
    files=project(); d=deps(files)
    edits=e.get('edits') or [e]
    for x in edits:
        p=f"{W}/theories/{x['file']}"; s=open(p).read()
        if s.count(x['old'])<1: return dict(error='old text not found: '+x['old'])
        open(p,'w').write(s.replace(x['old'],x['new'],1))
    dirty={x['file'][:-2] for x in edits}
    todo=[f for f in files if f in dirty]
    # closure in project order (project order is a topological order)
    changed=set(dirty)
    for f in files:
        if d[f]&changed: changed.add(f)
    failed=[]; broken=set(); rounds=0
    for f in files:
        if f not in changed: continue
        if d[f]&broken: broken.add(f); continue
        while True:
            r=sh(f'cd {W} && timeout 900 coqc -Q theories Verif theories/{f}.v')
            if r.returncode==0: break
            m=re.search(r'line (\d+), characters',r.stderr)
            n=admit(f,int(m.group(1))) if m else None
            if not n: broken.add(f); failed.append(f'{f}: not compilable: '+r.stderr.strip()[-200:]); break
            failed.append(n); rounds+=1
            if rounds>60: broken.add(f); break
    bad=[]
    admitted=set(failed)
    for f in files:
        if not f.startswith('Props_') or f not in changed: continue
        names=re.findall(r'^(?:Theorem|Corollary) (C\d\d\w*)',open(f'{W}/theories/{f}.v').read(),re.M)
        if f in broken: bad+=[n+' (not checked)' for n in names]; continue
        q='From Verif Require Import %s.\n'%f+''.join(f'Print Assumptions {n}.\n' for n in names)
        open(f'{W}/q.v','w').write(q)
        out=sh(f'cd {W} && coqc -Q theories Verif {W}/q.v').stdout
        parts=re.split(r'(?=^Axioms:|^Closed under)',out,flags=re.M)[1:]
        for n,o in zip(names,parts):
            ids=set(re.findall(r'^([\w.]+)\s*:',o,re.M)); ids={i.split('.')[-1] for i in ids}
            if ids&admitted: bad.append(n)
    return dict(lemmas=failed,theorems=bad)
if __name__=='__main__':
    E=json.load(open(sys.argv[1])); st=int(sys.argv[2]) if len(sys.argv)>2 else 0
    for i,e in enumerate(E):
        if i<st: continue
        r=run(e)
        print(i,e.get('def'),'|',e['claim'],'->',json.dumps(r),flush=True)
        with open(sys.argv[1]+'.out','a') as g: g.write(json.dumps(dict(i=i,edit=e,res=r))+'\n')
