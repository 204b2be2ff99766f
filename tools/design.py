#!/usr/bin/env python3
"""Writes DESIGN.md from the text below, properties.jsonl and MANIFEST.json."""
import json,re,glob,os
root=os.path.dirname(os.path.dirname(os.path.abspath(__file__)))
P=[json.loads(l) for l in open(root+'/properties.jsonl')]
M={c['property']:c for c in json.load(open(root+'/MANIFEST.json'))['claims']}
HOW=json.load(open(root+'/tools/how.json'))
order=[l.strip() for l in open(root+'/rocq/_CoqProject') if l.strip().endswith('.v')]
where={}
for f in order:
    for x in re.findall(r'^\s*Theorem\s+(C\d+_\w+)',open(root+'/rocq/'+f).read(),re.M): where[x]=os.path.basename(f)
out=[open(root+'/tools/design_head.md').read()]
out.append('## Properties: model and proof\n')
for p in sorted(P,key=lambda p:p['id']):
    c=M.get(p['id'],{'status':'?','theorems':[],'note':''})
    fs=sorted({where.get(t,'?') for t in c['theorems']})
    out.append(f"### {p['id']} {p['title']} ({c['status']})\n")
    out.append(f"*Claim.* {p['statement']}\n")
    if p['id'] in HOW: out.append(f"*Model and proof.* {HOW[p['id']]}\n")
    if c['note']: out.append(f"*Result.* {c['note']}\n")
    out.append(f"*Theorems* ({', '.join('`'+f+'`' for f in fs)}): "+', '.join('`'+t+'`' for t in c['theorems'])+'\n')
out.append(open(root+'/tools/design_tail.md').read())
open(root+'/DESIGN.md','w').write('\n'.join(out))
miss=[p['id'] for p in P if p['id'] not in HOW]
print('no how:',miss)
