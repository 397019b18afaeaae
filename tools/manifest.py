#!/usr/bin/env python3
# writes MANIFEST.json; theorem lists are taken from Props/Cxx.v, status/notes from here
import json,re,glob,os
os.chdir('/verif')
ST={}
def s(i,status,note): ST[i]=(status,note)
exec(open('tools/status.py').read())
props=[json.loads(l)['id'] for l in open('properties.jsonl')]
claims=[]
for i in props:
    f=f'rocq/theories/Props/{i}.v'
    th=re.findall(r'^(?:Theorem|Corollary)\s+(\w+)',open(f).read(),re.M) if os.path.exists(f) else []
    if i in ST: st,note=ST[i]
    elif th: st,note='partial','(status not set)'
    else: st,note='partial','not yet modelled'
    if not th and st!='not_applicable':
        st,note='partial','Not modelled yet: '+note
    claims.append(dict(property=i,status=st,theorems=th,note=note))
json.dump({"claims":claims},open('MANIFEST.json','w'),indent=1,ensure_ascii=False)
for c in claims: print(c['property'],c['status'],len(c['theorems']))
