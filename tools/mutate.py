#!/usr/bin/env python3
"""usage: mutate.py FILE.json   -- each entry: {file, old, new, definition, claim}
Applies each edit in a scratch copy of the last commit's rocq/, rebuilds (make -k) and appends one line to seeded/LOG.jsonl."""
import json,sys,os,re,subprocess,shutil,datetime
muts=json.load(open(sys.argv[1]))
D='/tmp/scratch/'+os.path.basename(sys.argv[1]).replace('.json','')
S=D+'/rocq'
def sh(c): return subprocess.run(c,shell=True,capture_output=True,text=True)
sh(f'rm -rf {D}; mkdir -p {D}; cd /verif && git archive HEAD rocq | tar x -C {D}')
sh(f'cd {S} && coq_makefile -f _CoqProject -o Makefile && make -j4')
props=sorted(f[:-2] for f in os.listdir(S+'/theories/Props') if f.endswith('.v'))
for m in muts:
    p=f'{S}/theories/{m["file"]}'
    src=open(p).read()
    if src.count(m['old'])<1: print('NOT FOUND',m['file'],m['old']); continue
    n=m.get('nth',1)
    parts=src.split(m['old']); 
    new=m['old'].join(parts[:n])+m['new']+m['old'].join(parts[n:])
    open(p,'w').write(new)
    # remove stale objects of dependents by make's own dependency tracking
    r=sh(f'cd {S} && timeout 1500 make -k -j4 2>&1')
    errs=re.findall(r'File "\./theories/([^"]+)", line (\d+)',r.stdout)
    if any(f==m['file'] for f,_ in errs): print('MODEL ITSELF BROKEN',m['definition'],r.stdout[-600:])
    failed=[]
    for q in props:
        vo=f'{S}/theories/Props/{q}.vo'; 
        if not os.path.exists(vo) or os.path.getmtime(vo)<os.path.getmtime(p):
            t=open(f'{S}/theories/Props/{q}.v').read()
            # did it really need rebuilding?
            d=sh(f'cd {S} && make -q theories/Props/{q}.vo').returncode
            if d!=0: failed.append(q)
    ths={}
    for q in failed:
        ths[q]=re.findall(r'^Theorem\s+(\w+)',open(f'{S}/theories/Props/{q}.v').read(),re.M)
    out=dict(definition=m['definition'],edit=f"{m['file']}: {m['old'].strip()}  ==>  {m['new'].strip()}",claim=m['claim'],
             first_errors=[f'{f}:{l}' for f,l in errs][:4],
             failed=[t for q in failed for t in ths[q]],tightened=m.get('tightened',[]))
    if not failed: out['note']='SURVIVED'
    print(('killed ' if failed else 'SURVIVED ')+m['definition'],failed,errs[:3])
    with open('/verif/seeded/LOG.jsonl','a') as f: f.write(json.dumps(out,ensure_ascii=False)+'\n')
    open(p,'w').write(src)
    sh(f'cd {S} && make -k -j4')
