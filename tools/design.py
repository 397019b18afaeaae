#!/usr/bin/env python3
"""Writes DESIGN.md: fixed text below + one row per property (MANIFEST.json) + one row per model file."""
import json,re,os,glob
R='/verif/'
man={c['property']:c for c in json.load(open(R+'MANIFEST.json'))['claims']}
props=[json.loads(l) for l in open(R+'properties.jsonl')]
T=R+'rocq/theories/'
def head(f):
    s=open(f).read(); m=re.search(r'\(\*\*(.*?)\*\)',s,re.S)
    return re.sub(r'\s+',' ',m.group(1)).strip().replace('|','/')
out=[open(R+'tools/design_head.md').read()]
out.append('## Properties: what is modelled, how it is proved, what was found\n')
plan=dict(re.findall(r'^(C\d\d) (.*)$',open(R+'tools/design_plan.txt').read(),re.M))
for p in props:
    c=man[p['id']]
    out.append(f"### {p['id']} {p['title']} — {c['status']}\n\n*Model and method:* {plan.get(p['id'],'')}\n\n*Result:* {c['note']}\n\n*Theorems* (each closed under the global context): {', '.join(c['theorems'])}\n")
out.append('## Which code is modelled: one row per model file\n\n| Model file | what it models, and simplifications |\n|---|---|')
for f in sorted(glob.glob(T+'Model/*.v')): out.append(f'| {os.path.basename(f)} | {head(f)} |')
out.append('\n'+open(R+'tools/design_tail.md').read())
open(R+'DESIGN.md','w').write('\n'.join(out))
