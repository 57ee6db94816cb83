"""List the /repo citations in the model files with the first cited line, to audit them."""
import re,sys,glob,os
root='/repo/decent_bench'
index={}
for d,_,fs in os.walk(root):
    for f in fs:
        if f.endswith('.py'): index.setdefault(f,[]).append(os.path.join(d,f))
for v in sorted(glob.glob('/verif/rocq/theories/Model/*.v')):
    s=open(v).read()
    if len(sys.argv)>1 and os.path.basename(v)[:-2] not in sys.argv[1:]: continue
    for m in re.finditer(r'([\w/]+\.py):(\d+)(?:-(\d+))?((?:,\s*\d+(?:-\d+)?)*)',s):
        f=os.path.basename(m.group(1)); c=index.get(f,[])
        c=[p for p in c if p.endswith(m.group(1).split('decent_bench/')[-1])] or c
        rest=[tuple(x.strip().split('-')) for x in m.group(4).split(',') if x.strip()]
        for r in [(m.group(2),m.group(3))]+rest:
            a=int(r[0]); b=int(r[1]) if len(r)>1 and r[1] else a
            ln=s[:m.start()].count('\n')+1
            if not c: print(os.path.basename(v),ln,m.group(0),'NO FILE'); continue
            L=open(c[0]).read().split('\n')
            first=L[a-1].strip() if a<=len(L) else 'OUT OF RANGE'; last=L[b-1].strip() if b<=len(L) else 'OUT'
            print(f'{os.path.basename(v)}:{ln} {f}:{a}-{b} | {first[:60]} || {last[:50]}')
