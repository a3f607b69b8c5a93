#!/usr/bin/env python3
"""Regenerate MANIFEST.json from the theorem names in rocq/theories/*Props.v.
A theorem belongs to property Cnn iff its name starts with 'Cnn_'."""
import json,re,glob,os
root=os.path.dirname(os.path.dirname(os.path.abspath(__file__)))
props=[json.loads(l) for l in open(root+'/properties.jsonl') if l.strip()]
status=json.load(open(root+'/tools/status.json'))
th={}
for f in sorted(glob.glob(root+'/rocq/theories/*Props.v')):
    for m in re.finditer(r'^Theorem\s+(C\d+)_([A-Za-z0-9_\']+)',open(f).read(),re.M):
        th.setdefault(m.group(1),[]).append(m.group(1)+'_'+m.group(2))
claims=[]
for p in props:
    i=p['id']; t=th.get(i,[])
    st=status.get(i,{})
    s=st.get('status','proved' if t else 'partial')
    claims.append(dict(property=i,status=s,theorems=t,note=st.get('note','' if t else 'no theorem yet')))
json.dump({"claims":claims},open(root+'/MANIFEST.json','w'),indent=1)
print({s:sum(1 for c in claims if c['status']==s) for s in('proved','partial','not_applicable')},'no theorem:',[c['property'] for c in claims if not c['theorems']])
