#!/usr/bin/env python3
"""Seeded-bug harness.  Usage: seed.py mutations.json
Each mutation: {"id","file","definition","old","new","claim"}.  A scratch copy of rocq/ (with its .vo files) is edited,
rebuilt, and every lemma whose script fails is replaced by a hole (an axiom that exists only in the scratch copy); at the
end Print Assumptions tells which property theorems rest on a hole, i.e. no longer prove.  The result of each mutation is
printed as a JSON line."""
import json, re, subprocess, sys, shutil, os, time
SRC=os.environ.get('SEEDSRC','/verif/rocq'); BASE=os.environ.get('SEEDBASE','/tmp/seedbase'); W=os.environ.get('SEEDWORK','/tmp/seedwork')
DECL=re.compile(r'^\s*(?:Local\s+|Global\s+)?(?:Lemma|Theorem|Corollary|Example|Fact|Remark|Instance|Definition|Fixpoint)\s+([\w\']+)',re.M)
def sh(c,cwd): return subprocess.run(c,shell=True,cwd=cwd,stdout=subprocess.PIPE,stderr=subprocess.STDOUT,text=True).stdout
def prepare():
    shutil.rmtree(BASE,ignore_errors=True); shutil.copytree(SRC,BASE,copy_function=shutil.copy2)
    for f in os.listdir(BASE+'/theories'):
        if not f.endswith('.v'): os.remove(BASE+'/theories/'+f)
    # the hole
    p=BASE+'/theories/Hole.v'; open(p,'w').write('Axiom SEEDED_HOLE : forall P : Prop, P.\n#[export] Set Suggest Proof Using.\n')
    cp=open(BASE+'/_CoqProject').read().replace('theories/Base.v','theories/Hole.v\ntheories/Base.v'); 
    cp=cp.replace('-Q theories Verif','-Q theories Verif\n-arg -w -arg -all')
    open(BASE+'/_CoqProject','w').write(cp)
    for f in os.listdir(BASE+'/theories'):
        if f.endswith('.v') and f!='Hole.v':
            q=BASE+'/theories/'+f; t=open(q).read()
            # keep line structure: prepend on the first line
            m=re.search(r'From Verif Require Import ',t)
            if m: t=t[:m.end()]+'Hole '+t[m.end():]
            else: t='From Verif Require Import Hole. '+t
            open(q,'w').write('Set Default Timeout 150. '+t)
    log=sh('coq_makefile -f _CoqProject -o Makefile && make',BASE)
    using={}
    for m in re.finditer(r'The proof of\s+([\w\']+)\s+should start with one of the\s+following\s+commands:\s*Proof using ([^.]*)\.',log):
        using[m.group(1)]=m.group(2).strip()
    json.dump(using,open(BASE+'.using.json','w'))
    if 'Error' in log: print(log[-2000:]); sys.exit(1)
def theorems():
    out=[]
    for f in sorted(os.listdir(BASE+'/theories')):
        if re.match(r'Prop_.*\.v$',f):
            for m in re.finditer(r'^(?:Theorem|Corollary)\s+(C\d+_\w+)',open(BASE+'/theories/'+f).read(),re.M): out.append((f[:-2],m.group(1)))
    return out
def patch(path,line,using):
    t=open(path).read(); pos=0
    for _ in range(line-1): pos=t.index('\n',pos)+1
    eol=t.find('\n',pos); eol=len(t) if eol<0 else eol
    best=None
    for m in DECL.finditer(t):
        if m.start()<=eol: best=m
        else: break
    if best is None: return None
    # several declarations may share a line: take the one whose proof is not closed
    pr=re.compile(r'\bProof\b[^.]*\.').search(t,best.start())
    qed=re.compile(r'\b(Qed|Defined)\.').search(t,pr.end() if pr else best.start())
    if not pr or not qed: return None
    name=best.group(1); body=t[best.start():qed.end()]
    if 'SEEDED_HOLE' in body: return None
    u=using.get(name)
    use=('Proof using %s.'%u) if u else 'Proof.'
    nl=body.count('\n')-t[best.start():pr.start()].count('\n')
    t=t[:pr.start()]+use+' apply SEEDED_HOLE. Qed.'+'\n'*nl+t[qed.end():]
    open(path,'w').write(t); return name
def run(mu,using):
    shutil.rmtree(W,ignore_errors=True); subprocess.run(['cp','-a',BASE,W],check=True)
    muts=mu.get('edits') or [mu]
    for e in muts:
        p=W+'/theories/'+e['file']; t=open(p).read()
        if t.count(e['old'])!=1: return {'id':mu['id'],'error':'old occurs %d times in %s'%(t.count(e['old']),e['file'])}
        open(p,'w').write(t.replace(e['old'],e['new']))
    holes=[]; it=0
    while True:
        it+=1; log=sh('make -k -j2',W)
        errs=re.findall(r'File "\./theories/(\w+)\.v", line (\d+), characters [\d-]+:\s*\n\s*Error',log)
        if not errs: break
        for f,l in dict(errs).items():
            n=patch(W+'/theories/'+f+'.v',int(l),using)
            if n is None: return {'id':mu['id'],'error':'cannot patch %s:%s'%(f,l),'log':log[log.find('Error')-200:][:1500]}
            holes.append(f+'.'+n)
        if it>150: return {'id':mu['id'],'error':'too many iterations','holes':holes}
    th=theorems(); mods=sorted({m for m,_ in th})
    src=W+'/theories/ZZ.v'
    with open(src,'w') as o:
        o.write('From Verif Require Import %s.\n'%' '.join(mods))
        for m,n in th: o.write('Goal True. idtac "@@@ %s". exact I. Qed.\nPrint Assumptions %s.%s.\n'%(n,m,n))
    log=sh('coqc -w -all -Q theories Verif theories/ZZ.v',W)
    failed=[]
    for part in log.split('@@@ ')[1:]:
        n=part.split()[0]
        if 'SEEDED_HOLE' in part: failed.append(n)
    if log.count('@@@ ')!=len(th): return {'id':mu['id'],'error':'assumption listing failed','log':log[-500:]}
    return {'id':mu['id'],'holes':holes,'failed':failed}
if __name__=='__main__':
    if sys.argv[1]=='prepare': prepare(); sys.exit()
    using=json.load(open(BASE+'.using.json'))
    for mu in json.load(open(sys.argv[1])):
        t0=time.time(); r=run(mu,using); r['secs']=int(time.time()-t0); print(json.dumps(r),flush=True)
