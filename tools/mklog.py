#!/usr/bin/env python3
"""Builds /verif/seeded/LOG.jsonl from the mutation definitions (/verif/seeded/mutations.json) and the results printed by seed.py."""
import json,glob,sys,re
muts={}
for i in range(1,20):
    try:
        for m in json.load(open(f'/tmp/mut/b{i}.json')): muts[m['id']]=m
    except FileNotFoundError: pass
cl={'M001':'C07','M002':'C07/C24','M003':'C07','M009':'C05/C06','M010':'C05/C06','M011':'C09','M012':'C08','M013':'C19/C22','M017':'C52','M018':'C35','M019':'C52','M020':'C65','M021':'C52','M022':'C51','M023':'C51',
'M045':'C18','M046':'C18','M048':'C71/C72','M049':'C22/C72','M050':'C18','M051':'C72','M052':'C72','M062':'C20','M064':'C35','M065':'C52','M066':'C18','M067':'C30','M068':'C31','M069':'C25','M070':'C31','M071':'C27','M072':'C27','M073':'C27','M074':'C26',
'M075':'C27/C54','M076':'C27/C54','M077':'C32','M078':'C25','M079':'C25/C26','M080':'C26','M081':'C26/C52','M082':'C57','M083':'C34','M084':'C34','M085':'C34','M086':'C34','M087':'C34','M088':'C34','M089':'C34/C61','M090':'C35/C62','M091':'C34/C54',
'M092':'C33','M093':'C33','M094':'C33','M095':'C33','M097':'C36','M098':'C36/C41','M099':'C37','M100':'C37','M101':'C38','M102':'C38','M103':'C81','M104':'C38','M105':'C38','M106':'C38','M107':'C46','M108':'C38','M109':'C46/C83','M110':'C39','M111':'C39','M112':'C39','M113':'C39',
'M114':'C40','M115':'C40','M116':'C40','M118':'C40/C39','M119':'C60','M120':'C43','M121':'C43','M122':'C45','M123':'C45','M124':'C45','M125':'C58','M126':'C59','M127':'C83','M128':'C43','M129':'C64','M130':'C84','M131':'C70','M132':'C70','M133':'C70','M134':'C48','M135':'C48','M136':'C83','M137':'C48',
'M138':'C49','M139':'C49','M140':'C49','M141':'C49','M142':'C49','M143':'C48','M144':'C48'}
tight={'M019':['C52_feature_names (new)'],'M022':['C51_mean_midpoints (new)'],'M023':['C51_integrate_value (new)'],'M029':['C13_greedy, C14_dp_optimal_partial, C15_dp_valid_partial, C15_single_bin_cheap_partial (hypotheses no longer use the edited helper)','C13_one_bin (new)','C15_one_bin (new)'],
'M103':['C81_first (new)'],'M131':['C70_ale (new)'],'M132':['C70_pdp (new)'],'M133':['C70_ale (new)'],'M127':['C83_splits (new)'],'M109':['C83_splits (new)'],'M130':['C84_construct (new)']}
note={'M143':'not behavioural: tree_full_scaled is written but never read by any method','M053':'not behavioural: the stored Jacobian is only a cache','M022':'the first run left everything proved because the sample points are symmetric for affine functions'}
try:
    extra=json.load(open('/verif/tools/logextra.json')); tight.update(extra.get('tight',{})); note.update(extra.get('note',{})); cl.update(extra.get('cl',{}))
except FileNotFoundError: pass
res={}; first={}
files=['b1','b5a','q1a','q2a','r1','r2']+sys.argv[1:]
for f in files:
    try: lines=open(f'/tmp/mut/{f}.out').read().splitlines()
    except FileNotFoundError: continue
    for l in lines:
        try: r=json.loads(l)
        except Exception: continue
        res[r['id']]=r
out=[]
for k in sorted(muts):
    if k not in res: continue
    m=muts[k]; r=res[k]
    if 'failed' not in r: continue
    claim=m['claim']
    if k in cl: claim=cl[k]+': '+re.sub(r'^(C\d\d[?]?([/-]C\d\d[?]?)*( refuted|_refuted)?)\s*:?\s*','',claim)
    d={'id':k,'definition':f"{m['file']}:{m['definition']}",'edit':{'old':m['old'],'new':m['new']},'claim_broken':claim,'theorems_failed':r['failed'],'theorems_tightened':tight.get(k,[])}
    if k in note: d['note']=note[k]
    out.append(d)
json.dump([muts[k] for k in sorted(muts)],open('/verif/seeded/mutations.json','w'),indent=0)
with open('/verif/seeded/LOG.jsonl','w') as f:
    for d in out: f.write(json.dumps(d)+'\n')
print(len(out),'logged;',[d['id'] for d in out if not d['theorems_failed']])
print('weak:',[(d['id'],d['theorems_failed']) for d in out if len(d['theorems_failed'])==1])
