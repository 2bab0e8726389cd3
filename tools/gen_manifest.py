#!/usr/bin/env python3
"""Regenerate MANIFEST.json from the theorem names Cnn_* in rocq/theories/Properties*.v and tools/notes.json."""
import json,re,glob,os
root=os.path.dirname(os.path.dirname(os.path.abspath(__file__)))
notes=json.load(open(root+'/tools/notes.json'))
props=[json.loads(l)['id'] for l in open(root+'/properties.jsonl') if l.strip()]
th={}
for f in sorted(glob.glob(root+'/rocq/theories/Properties*.v')):
    for m in re.finditer(r'^Theorem (C\d+)_(\w+)',open(f).read(),re.M):
        th.setdefault(m.group(1),[]).append(m.group(1)+'_'+m.group(2))
claims=[]
for p in props:
    n=notes.get(p,{})
    if p in th:
        st=n.get('status','partial' if all(t.endswith('_partial') for t in th[p]) else 'proved')
        claims.append(dict(property=p,status=st,theorems=th[p],note=n.get('note','')))
json.dump({"claims":claims},open(root+'/MANIFEST.json','w'),indent=1)
print(len(claims),'of',len(props),'missing',[p for p in props if p not in th])
