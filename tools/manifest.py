#!/usr/bin/env python3
"""Regenerate MANIFEST.json: theorem names are taken from rocq/theories/Props*.v by prefix."""
import json,re,glob,os
here=os.path.dirname(os.path.dirname(os.path.abspath(__file__)))
thms={}
for f in sorted(glob.glob(here+'/rocq/theories/Props*.v')):
    for m in re.finditer(r'^Theorem ((C\d\d)_\w+)',open(f).read(),re.M):
        thms.setdefault(m[2],[]).append(m[1])
meta=json.load(open(here+'/tools/status.json'))
claims=[]
for l in open(here+'/properties.jsonl'):
    i=json.loads(l)['id']
    if i in thms or i in meta:
        st,note=meta.get(i,["proved",""])
        claims.append(dict(property=i,status=st,theorems=thms.get(i,[]),note=note))
        if i not in meta: print("no status for",i)
json.dump({"claims":claims},open(here+'/MANIFEST.json','w'),indent=1)
print(len(claims),"claims",sum(len(c['theorems']) for c in claims),"theorems; missing:",[json.loads(l)['id'] for l in open(here+'/properties.jsonl') if json.loads(l)['id'] not in thms])
