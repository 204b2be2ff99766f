#!/usr/bin/env python3
"""note.py Cnn 'text' [status] : sets the manifest note of a property."""
import json,sys,os
p=os.path.dirname(os.path.abspath(__file__))+'/notes.json'
d=json.load(open(p)); e=d.setdefault(sys.argv[1],{}); e['note']=sys.argv[2]
if len(sys.argv)>3: e['status']=sys.argv[3]
json.dump(d,open(p,'w'),indent=1)
