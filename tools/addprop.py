#!/usr/bin/env python3
"""addprop.py: read JSON objects (one per line) on stdin and add/replace them in properties.jsonl by id."""
import sys,json,os
root=os.path.dirname(os.path.dirname(os.path.abspath(__file__)))
p=root+'/properties.jsonl'
d={}
for l in open(p):
    if l.strip():
        o=json.loads(l); d[o['id']]=o
for l in sys.stdin:
    if l.strip():
        o=json.loads(l); d.setdefault(o['id'],{}).update(o)
for o in d.values():
    for k in ('id','title','statement','quantifier','why_tests_cant','anchors'): assert k in o,(o['id'],k)
open(p,'w').write(''.join(json.dumps(d[k])+'\n' for k in sorted(d,key=lambda s:int(s[1:]))))
