#!/usr/bin/env python3
"""Writes MANIFEST.json from tools/claims.txt:  Cxx | status | thm, thm | note"""
import json,os
root=os.path.dirname(os.path.dirname(os.path.abspath(__file__)))
claims=[]
for l in open(os.path.join(root,'tools/claims.txt')):
    l=l.strip()
    if not l or l.startswith('#'): continue
    p,st,th,note=[x.strip() for x in l.split('|',3)]
    claims.append(dict(property=p,status=st,theorems=[t.strip() for t in th.split(',') if t.strip()],note=note))
json.dump({"claims":claims},open(os.path.join(root,'MANIFEST.json'),'w'),indent=1)
