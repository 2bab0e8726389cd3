#!/usr/bin/env python3
"""Rewrite the findings list at the end of DESIGN.md from the _refuted theorems and the notes."""
import json,os
root=os.path.dirname(os.path.dirname(os.path.abspath(__file__)))
man=json.load(open(root+'/MANIFEST.json'))['claims']
t={json.loads(l)['id']:json.loads(l)['title'] for l in open(root+'/properties.jsonl') if l.strip()}
s=open(root+'/DESIGN.md').read(); h='## Findings'
i=s.index(h); head=s[i:].split('\n',1)[0]
o=s[:i]+head+'\n\n'
for c in man:
    r=[x for x in c['theorems'] if 'refuted' in x]
    if r: o+='* %s (%s): %s'%(c['property'],t[c['property']],', '.join('`%s`'%x for x in r))+(('. '+c['note']) if c['note'] else '')+'\n'
open(root+'/DESIGN.md','w').write(o)
