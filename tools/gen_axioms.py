#!/usr/bin/env python3
"""Write AXIOMS.md: for every theorem of MANIFEST.json what Print Assumptions lists (needs a finished build in rocq/)."""
import json,re,glob,os,subprocess,tempfile
root=os.path.dirname(os.path.dirname(os.path.abspath(__file__)))
man=json.load(open(root+'/MANIFEST.json'))['claims']
out='From Verif Require '+' '.join(sorted(os.path.basename(f)[:-2] for f in glob.glob(root+'/rocq/theories/Properties*.v')))+'.\n'
where={}
for f in glob.glob(root+'/rocq/theories/Properties*.v'):
    for m in re.finditer(r'^Theorem (C\d+_\w+)',open(f).read(),re.M): where[m.group(1)]=os.path.basename(f)[:-2]
ths=[(c['property'],t) for c in man for t in c['theorems']]
for p,t in ths: out+='Goal True. idtac "@@%s". Abort.\nPrint Assumptions Verif.%s.%s.\n'%(t,where[t],t)
d=tempfile.mkdtemp(); open(d+'/a.v','w').write(out)
r=subprocess.run(['coqc','-Q',root+'/rocq/theories','Verif',d+'/a.v'],capture_output=True,text=True)
if r.returncode: print(r.stderr[-2000:]); raise SystemExit(1)
ax={}
for blk in r.stdout.split('@@')[1:]:
    name,rest=blk.split('\n',1)
    ax[name.strip()]=tuple(sorted(set(re.findall(r'^([\w.]+)\s*:',rest,re.M))-{'Axioms'})) if 'Closed under' not in rest else ()
groups={}
for p,t in ths: groups.setdefault(ax[t],[]).append(t)
with open(root+'/AXIOMS.md','w') as f:
    f.write('# What Print Assumptions lists\n\nGenerated by tools/gen_axioms.py.\n')
    for g in sorted(groups,key=len):
        f.write('\n## '+(', '.join('`%s`'%x for x in g) if g else 'Closed under the global context (no axiom)')+'\n\n')
        f.write(', '.join(groups[g])+'\n')
for g in groups: print(len(groups[g]),g)
