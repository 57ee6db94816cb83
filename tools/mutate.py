#!/usr/bin/env python3
"""Apply one model mutation at a time in a scratch copy, rebuild, log which theorems fail.
usage: mutate.py mutations.json   (list of {file, old, new, def, claim}); 2 workers"""
import json,sys,subprocess,os,re,threading
from concurrent.futures import ThreadPoolExecutor
src='/verif/rocq'; base='/tmp/mut/base'
muts=json.load(open(sys.argv[1]))
os.makedirs('/tmp/mut',exist_ok=True)
def sh(c,t=1500): return subprocess.run(c,shell=True,capture_output=True,text=True,timeout=t)
sh(f'rm -rf {base}; cp -a {src} {base}; cd {base} && ./mkproject.sh; coq_makefile -f _CoqProject -o Makefile; make -j4')
lock=threading.Lock()
log=open('/verif/seeded/LOG.jsonl','a')
def thm_at(path,line):
    name=None
    for i,l in enumerate(open(path),1):
        if i>line: break
        m=re.match(r'\s*(?:Theorem|Lemma|Corollary|Example|Definition|Fixpoint)\s+(\S+)',l)
        if m: name=m.group(1)
    return name
def run(im):
    i,m=im
    dst=f'/tmp/mut/w{i}'
    sh(f'rm -rf {dst}; cp -a {base} {dst}')
    p=f"{dst}/theories/{m['file']}"
    orig=open(p).read()
    if orig.count(m['old'])<1:
        print('NOT FOUND',m); sh(f'rm -rf {dst}'); return
    open(p,'w').write(orig.replace(m['old'],m['new'],1))
    r=sh(f'cd {dst} && timeout 1200 make -k -j2')
    out=r.stdout+r.stderr
    fails=[f.split('/')[-1]+':'+str(thm_at(f'{dst}/{f}',int(l))) for f,l in re.findall(r'File "\./(theories/[^"]+)", line (\d+), characters [^\n]*:\nError',out)]
    lost=[]
    for f in sorted(os.listdir(f'{dst}/theories/Props')):
        if f.endswith('.v') and (f"Props/{f}o] Error" in out or re.search(r"Props/%so' not remade"%re.escape(f),out) or not os.path.exists(f'{dst}/theories/Props/{f}o')):
            lost+=re.findall(r'^\s*Theorem (C\d+\w*)',open(f'{dst}/theories/Props/{f}').read(),re.M)
    e={"definition":m['file']+':'+m['def'],"edit":f"{m['old'].strip()}  ==>  {m['new'].strip()}","claim":m['claim'],"failed":fails,"unproved":lost,"tightened":m.get('tightened',[])}
    with lock:
        print(('OK   ' if fails else 'SURVIVED '),m['def'],'|',m['claim'],'|',fails,flush=True)
        log.write(json.dumps(e)+'\n'); log.flush()
    sh(f'rm -rf {dst}')
with ThreadPoolExecutor(2) as ex: list(ex.map(run,enumerate(muts)))
