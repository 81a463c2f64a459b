#!/usr/bin/env python3
"""Regenerates MANIFEST.json: theorem names are collected from theories/Props (C<nn>_ prefix);
status/notes come from tools/status.json."""
import json,re,glob,os
R=os.path.dirname(os.path.dirname(os.path.abspath(__file__)))
th={}
for f in sorted(glob.glob(R+'/rocq/theories/Props/*.v')):
    for m in re.finditer(r'^Theorem (C\d+)_(\w+)',open(f).read(),re.M):
        th.setdefault(m.group(1),[]).append(m.group(0).split()[1])
st=json.load(open(R+'/tools/status.json'))
props=[json.loads(l) for l in open(R+'/properties.jsonl') if l.strip()]
claims=[]
for p in props:
    i=p['id']; t=th.get(i,[]); s=st.get(i,{})
    if not t and 'status' not in s: continue
    bad=[x for x in t if x.endswith('_partial') or x.endswith('_refuted')]
    claims.append({'property':i,'status':s.get('status','partial' if bad else 'proved'),'theorems':t,'note':s.get('note','')})
json.dump({'claims':claims},open(R+'/MANIFEST.json','w'),indent=1)
print(len(claims),'claims',[p['id'] for p in props if p['id'] not in {c['property'] for c in claims}])
