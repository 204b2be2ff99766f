#!/usr/bin/env python3
"""Regenerates MANIFEST.json from the theorem names in rocq/theories/*Props.v.
Theorem Cnn_... belongs to property Cnn; status partial if any _partial or
_refuted theorem exists for the property and no unconditional one is marked
complete in NOTES."""
import re,json,glob,os
root=os.path.dirname(os.path.dirname(os.path.abspath(__file__)))
notes=json.load(open(root+'/tools/notes.json'))
props=[json.loads(l)['id'] for l in open(root+'/properties.jsonl') if l.strip()]
th={}
for f in sorted(glob.glob(root+'/rocq/theories/*Props*.v')):
    for m in re.finditer(r'^\s*Theorem\s+((C\d+)_\w+)',open(f).read(),re.M):
        th.setdefault(m.group(2),[]).append(m.group(1))
claims=[]
for p in props:
    t=th.get(p,[])
    n=notes.get(p,{})
    st=n.get('status') or ('proved' if t and not any(x.endswith('_partial') or x.endswith('_refuted') for x in t) else 'partial' if t else None)
    if st is None: continue
    claims.append({"property":p,"status":st,"theorems":t,"note":n.get('note','')})
json.dump({"claims":claims},open(root+'/MANIFEST.json','w'),indent=1)
print(len(claims),'claims',sum(len(c['theorems']) for c in claims),'theorems; missing',[p for p in props if p not in th])
