#!/usr/bin/env python3
"""Writes /verif/COVERAGE.md: for every function of /repo/effector the model definitions whose comments cite its lines."""
import ast,os,re
R='/repo/effector'; T='/verif/rocq/theories'
funcs=[]
for f in sorted(os.listdir(R)):
    if not f.endswith('.py'): continue
    tree=ast.parse(open(f'{R}/{f}').read())
    def walk(n,pre):
        for c in n.body:
            if isinstance(c,ast.ClassDef): walk(c,pre+c.name+'.')
            elif isinstance(c,(ast.FunctionDef,ast.AsyncFunctionDef)): funcs.append((f,pre+c.name,c.lineno,c.end_lineno))
    walk(tree,'')
cites=[]  # (pyfile, a, b, coqfile, def)
TOK=re.compile(r'(\w+\.py)((?::\s*|\s+lines?\s+)\d[\d,\s\-–]*)|(?<![\w.])lines?\s+(\d[\d,\s\-]*)')
for f in sorted(os.listdir(T)):
    if not f.endswith('.v'): continue
    t=open(f'{T}/{f}').read()
    last=None
    for m in re.finditer(r'\(\*(.*?)\*\)',t,re.S):
        c=m.group(1)
        prev=re.findall(r'^\s*(?:Definition|Fixpoint|Record|Inductive|Variable)\s+([\w\']+)',t[:m.start()],re.M)
        nxt=re.compile(r'^\s*(?:Definition|Fixpoint|Record|Inductive|Variable)\s+([\w\']+)',re.M).search(t,m.end())
        inl = not c.startswith('*')
        name = prev[-1] if inl and prev else (nxt.group(1) if nxt else None)
        for k in re.finditer(r'(\w+\.py)\s*(?::|lines?)\s*([\d\-, ]+)|\blines?\s+([\d\-, ]+)',c):
            if k.group(1): last=k.group(1); nums=k.group(2)
            else: nums=k.group(3)
            if not last: continue
            for r in re.findall(r'(\d+)(?:-(\d+))?',nums):
                a=int(r[0]); b=int(r[1] or r[0])
                if b<a: continue
                cites.append((last,a,b,f[:-2],name))
        if inl and last and not re.search(r'\.py',c):
            for r in re.findall(r'^\s*(?:lines?\s*)?(\d+)(?:-(\d+))?',c):
                a=int(r[0]); b=int(r[1] or r[0]); cites.append((last,a,b,f[:-2],name))
out=['# Coverage: functions of /repo/effector and the model definitions citing their lines','',
     'Generated by tools/coverage.py from the citation comments of the model files.','']
cur=None; miss=[]
for f,n,a,b in funcs:
    if f!=cur: cur=f; out+=['',f'## {f}','','| function | lines | model definitions |','|---|---|---|']
    ds=[]
    for (pf,x,y,cf,d) in cites:
        if pf==f and x<=b and y>=a and (y-x)<=(b-a)+40:
            k=f'{cf}.{d}'
            if k not in ds: ds.append(k)
    if not ds: miss.append(f'{f}:{n}')
    out.append(f'| {n} | {a}-{b} | {", ".join(ds) if ds else "— (see DESIGN.md, Not modelled)"} |')
open('/verif/COVERAGE.md','w').write('\n'.join(out)+'\n')
print('\n'.join(miss))
