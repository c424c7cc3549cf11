#!/usr/bin/env python3
"""Regenerate MANIFEST.json from the property list and the theorems in *Props.v."""
import json,re,glob,os
root=os.path.dirname(os.path.dirname(os.path.abspath(__file__)))
props=[json.loads(l) for l in open(root+'/properties.jsonl')]
notes={}
nf=root+'/tools/notes.json'
if os.path.exists(nf): notes=json.load(open(nf))
thms={}
for f in sorted(glob.glob(root+'/rocq/theories/*Props*.v')):
    for m in re.finditer(r'^Theorem\s+((C\d+)_\w+)',open(f).read(),re.M):
        thms.setdefault(m.group(2),[]).append(m.group(1))
claims=[]
for p in props:
    i=p['id']; t=thms.get(i,[]); n=notes.get(i,{})
    if not t: status="partial"; note="not modelled yet"
    else:
        status=n.get('status') or ("partial" if all(x.endswith('_partial') for x in t) else "proved")
        note=n.get('note','')
    claims.append(dict(property=i,status=status,theorems=t,note=note))
json.dump({"claims":claims},open(root+'/MANIFEST.json','w'),indent=1)
print({c['property']:len(c['theorems']) for c in claims})
