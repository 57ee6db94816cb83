#!/usr/bin/env python3
"""Random token mutants of the model: apply one, discard it if the model file no
longer type-checks, otherwise rebuild up to the first failing proof.
usage: automut.py N SEED OUT [file-regex]   (2 workers; results as JSON lines in OUT)"""
import json,sys,subprocess,os,re,random,threading
from concurrent.futures import ThreadPoolExecutor
N,seed,out=int(sys.argv[1]),int(sys.argv[2]),sys.argv[3]
pat=re.compile(sys.argv[4] if len(sys.argv)>4 else '.')
src='/verif/rocq'; base='/tmp/am/base%d'%seed
def sh(c,t=3000):
    return subprocess.run(c,shell=True,capture_output=True,text=True,timeout=t)
sh(f'rm -rf {base}; cp -a {src} {base}; cd {base} && ./mkproject.sh; coq_makefile -f _CoqProject -o Makefile; make -j4')
RULES=[(r'<\?','<=?'),(r'<=\?','<?'),(r'Nat\.ltb','Nat.leb'),(r'Nat\.leb','Nat.ltb'),(r'Z\.ltb','Z.leb'),(r'Z\.leb','Z.ltb'),
 (r'&&','||'),(r'\|\|','&&'),(r'\btrue\b','false'),(r'\bfalse\b','true'),(r'\bvadd\b','vsub'),(r'\bvsub\b','vadd'),
 (r'(?<=\s)\+(?=\s)','-'),(r'(?<=\s)-(?=\s)','+'),(r'(?<=\s)\*(?=\s)','+'),(r'(?<=\s)/(?=\s)','*'),
 (r'\bfst\b','snd'),(r'\bsnd\b','fst'),(r'\bNat\.max\b','Nat.min'),(r'\bNat\.min\b','Nat.max'),(r'\bZ\.max\b','Z.min'),(r'\bZ\.min\b','Z.max'),
 (r'\bRmax\b','Rmin'),(r'\bRmin\b','Rmax'),(r'\bnegb ',''),(r'\brev ',''),(r'\bfirstn\b','skipn'),(r'\bskipn\b','firstn'),
 (r'\bexistsb\b','forallb'),(r'\bforallb\b','existsb'),(r'\(S (\w+)\)',r'\1'),(r'(?<![\w.])0(?![\w.])','1'),(r'(?<![\w.])1(?![\w.])','0'),(r'(?<![\w.])1(?![\w.])','2'),
 (r'(?<![\w.])2(?![\w.])','1'),(r'\bSome (\w+)\b','None'),(r'\blast\b','hd'),(r'\bfilter \((fun [^=]*=>) ',r'filter (\1 negb '),
 (r'\bn_(sent|recv|drop)\b','n_call'),(r'\ba_(sent|recv)\b','a_drop'),(r'\bmap fst\b','map snd')]
def blank(s):  # comments and strings masked
    o=list(s);i=0;d=0
    while i<len(s):
        if s.startswith('(*',i): d+=1;o[i]=o[i+1]='#';i+=2;continue
        if s.startswith('*)',i) and d: d-=1;o[i]=o[i+1]='#';i+=2;continue
        if d and s[i]!='\n': o[i]='#'
        elif s[i]=='"' and not d:
            j=s.index('"',i+1)
            for k in range(i,j+1): o[k]='#'
            i=j+1;continue
        i+=1
    return ''.join(o)
cands=[]
for f in sorted(os.listdir(src+'/theories/Model')):
    if not f.endswith('.v') or not pat.search(f): continue
    s=open(f'{src}/theories/Model/{f}').read(); b=blank(s)
    # definition spans
    defs=[(m.start(),m.group(1)) for m in re.finditer(r'^\s*(?:Definition|Fixpoint|with)\s+(\w+)',b,re.M)]
    for n,(st,name) in enumerate(defs):
        en=defs[n+1][0] if n+1<len(defs) else len(b)
        z=b.find(':=',st,en)
        if z<0: continue
        dot=re.compile(r'\.\s').search(b,z)
        en=min(en,dot.start()) if dot else en
        for r,t in RULES:
            for m in re.finditer(r,b[z:en]):
                a,e=z+m.start(),z+m.end()
                new=m.expand(t) if '\\' in t else t
                cands.append((f,name,a,e,new))
random.seed(seed); random.shuffle(cands)
print(len(cands),'candidates',flush=True)
# spread over definitions
seen={};order=[]
for c in cands: seen.setdefault((c[0],c[1]),[]).append(c)
keys=list(seen); random.shuffle(keys)
while len(order)<4*N and any(seen[k] for k in keys):
    for k in keys:
        if seen[k]: order.append(seen[k].pop())
lock=threading.Lock(); done=[0]; fo=open(out,'a')
def thm_at(path,line):
    name=None
    for i,l in enumerate(open(path),1):
        if i>line: break
        m=re.match(r'\s*(?:Theorem|Lemma|Corollary|Example|Definition|Fixpoint)\s+(\S+)',l)
        if m: name=m.group(1)
    return name
def run(ic):
    i,(f,name,a,e,new)=ic
    if done[0]>=N: return
    dst=f'/tmp/am/s{seed}w{i}'
    sh(f'rm -rf {dst}; cp -a {base} {dst}')
    try:
        p=f'{dst}/theories/Model/{f}'; s=open(p).read()
        open(p,'w').write(s[:a]+new+s[e:])
        line=s.count('\n',0,a)+1
        r=sh(f'cd {dst}/theories && timeout 120 coqc -Q . Verif Model/{f}')
        if r.returncode: return
        r=sh(f'cd {dst} && nice timeout 2400 make -j2')
        o=r.stdout+r.stderr
        fails=[x.split('/')[-1]+':'+str(thm_at(f'{dst}/{x}',int(l))) for x,l in re.findall(r'File "\./(theories/[^"]+)", line (\d+), characters [^\n]*:\nError',o)]
        ctx=s.split('\n')[line-1].strip()
        col=a-(s.rfind('\n',0,a)+1)
        with lock:
            done[0]+=1
            d={"definition":f'Model/{f}:{name}',"line":line,"edit":f"{ctx}  [col {col}: {s[a:e]} ==> {new}]","failed":fails,"rc":r.returncode}
            fo.write(json.dumps(d)+'\n'); fo.flush()
            print(done[0],'OK' if fails else 'SURVIVED rc=%d'%r.returncode,name,line,d['edit'],fails[:2],flush=True)
    except subprocess.TimeoutExpired: pass
    finally: sh(f'rm -rf {dst}')
with ThreadPoolExecutor(2) as ex: list(ex.map(run,enumerate(order)))
