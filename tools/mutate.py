#!/usr/bin/env python3
"""Seed a wrong program into a scratch copy of the model and see which theorems notice.
usage: mutate.py muts.json   (list of {"file","definition","old","new","claim"})
For each mutation: copy /verif/rocq (with .vo) to a scratch directory, apply the edit, recompile the edited file and everything that depends on it.
When a proof script fails it is replaced by Admitted and compilation goes on; at the end every Theorem of the Properties files that failed itself, or whose
Print Assumptions now lists an admitted lemma, counts as failed.  Appends one JSON line per mutation to the output file (argv[2])."""
import sys,os,re,json,shutil,subprocess,tempfile
SRC='/verif/rocq'
START=re.compile(r'^(Lemma|Theorem|Example|Corollary|Remark|Fact|Program Definition|Fixpoint|Definition|Instance) (\w+)',re.M)
def order():
    return [l.strip()[len('theories/'):] for l in open(SRC+'/_CoqProject') if l.strip().startswith('theories/')]
def deps(files):
    d={}
    for f in files:
        t=open(f'{SRC}/theories/{f}').read()
        s=set()
        for m in re.finditer(r'From Verif Require (?:Import |Export )?([^.]*)\.',t): s|={x+'.v' for x in m.group(1).split()}
        d[f]=s
    return d
def run(cwd,f,to):
    try:
        p=subprocess.run(f'ulimit -v 6000000; exec coqc -Q . Verif {f}',shell=True,cwd=cwd,capture_output=True,text=True,timeout=to)
        return p.returncode,p.stdout,p.stderr
    except subprocess.TimeoutExpired:
        # find the place with -time
        try:
            p=subprocess.Popen(f'ulimit -v 6000000; exec timeout {to} coqc -time -Q . Verif {f}',shell=True,cwd=cwd,stdout=subprocess.PIPE,stderr=subprocess.DEVNULL,text=True)
            out=p.communicate()[0]
            last=[m for m in re.finditer(r'Chars (\d+) - (\d+)',out)]
            pos=int(last[-1].group(2)) if last else 0
            return 'timeout',out,pos
        except Exception as e: return 'timeout','',0
def enclosing(text,pos):
    best=None
    for m in START.finditer(text):
        if m.start()<=pos: best=m
    return best
def compile_admit(cwd,f,to,log):
    """compile f, admitting failed proofs; returns list of failed names or None if hopeless"""
    failed=[]
    path=f'{cwd}/{f}'
    for _ in range(200):
        rc,out,err=run(cwd,f,to)
        if rc==0: return failed,out
        text=open(path,encoding='utf8').read()
        if rc=='timeout':
            b=text.encode(); pos=len(b[:err+1].decode('utf8','ignore'))
            # next sentence after err
        else:
            m=re.search(r'line (\d+), characters (\d+)-(\d+)',err)
            if not m:
                log.append(f'{f}: {err[-300:]}'); return None,''
            L=int(m.group(1)); lines=text.split('\n'); pos=sum(len(x)+1 for x in lines[:L-1])+int(m.group(2))
        m=enclosing(text,pos)
        if not m: log.append(f'{f}: no enclosing: {str(err)[-300:]}'); return None,''
        pr=re.compile(r'\bProof\b[^.]*\.').search(text,m.start())
        q=re.compile(r'\b(Qed|Defined)\.').search(text,m.start())
        kind,name=m.group(1),m.group(2)
        nx=START.search(text,m.end())
        if not q or not pr or (nx and pr.start()>nx.start()) or pos<pr.start():
            # error in a statement or definition: drop the whole sentence(s)
            log.append(f'{f}: statement/definition {name} does not elaborate: {str(err)[-200:]}')
            if kind in('Theorem','Example') and q and pr:
                failed.append(name)
                text=text[:m.start()]+text[q.end():]
                text=re.sub(r'Print Assumptions %s\.'%name,'',text)
                open(path,'w',encoding='utf8').write(text); continue
            return None,''
        failed.append(name)
        text=text[:pr.start()]+'Proof. Admitted.'+text[q.end():]
        open(path,'w',encoding='utf8').write(text)
    return None,''
def mutate(mu,to=120):
    files=order(); D=deps(files)
    tmp=tempfile.mkdtemp(prefix='mut_',dir='/tmp'); cwd=tmp+'/theories'
    shutil.copytree(SRC+'/theories',cwd)
    f=mu['file']; t=open(f'{cwd}/{f}').read()
    if t.count(mu['old'])!=1:
        shutil.rmtree(tmp); return {'error':f"old text occurs {t.count(mu['old'])} times",**mu}
    open(f'{cwd}/{f}','w').write(t.replace(mu['old'],mu['new']))
    affected={f}; log=[]; failed={}; hopeless=[]; thms=[]; admitted=set()
    for g in files:
        if g==f or D[g]&affected:
            affected.add(g)
            if D[g]&set(hopeless): hopeless.append(g); 
            else:
                r,out=compile_admit(cwd,g,to,log)
                if r is None: hopeless.append(g)
                else:
                    if r: failed[g]=r; admitted|=set(r)
            if g.startswith('Properties'):
                text=open(f'{SRC}/theories/{g}').read()
                names=[m.group(2) for m in START.finditer(text) if m.group(1)=='Theorem']
                if g in hopeless: thms+=[n+' (file not rebuilt)' for n in names]
                elif g not in hopeless:
                    # per-theorem assumptions
                    cur=open(f'{cwd}/{g}').read()
                    names_cur=[n for n in names if re.search(r'Theorem %s\b'%n,cur)]
                    q='From Verif Require Import %s.\n'%g[:-2]+''.join(f'Print Assumptions {n}.\n' for n in names_cur)
                    open(cwd+'/QQ.v','w').write(q)
                    p=subprocess.run('coqc -Q . Verif QQ.v',shell=True,cwd=cwd,capture_output=True,text=True)
                    chunks=re.split(r'(?=^(?:Closed under|Axioms:))',p.stdout,flags=re.M)[1:]
                    if len(chunks)!=len(names_cur): log.append(f'assumption parse {g} {p.stderr[-200:]}')
                    for n,c in zip(names_cur,chunks):
                        ax=set(x.split('.')[-1] for x in re.findall(r'^([\w.\']+)\s*:',c,re.M))
                        if ax&admitted: thms.append(n)
                    thms+=[n for n in names if n not in names_cur]
    shutil.rmtree(tmp)
    return {'file':f,'definition':mu['definition'],'edit':mu.get('edit') or (mu['old']+'  ==>  '+mu['new']),'claim':mu['claim'],'failed':thms,'proofs_broken':failed,'notes':log}
if __name__=='__main__':
    for mu in json.load(open(sys.argv[1])):
        r=mutate(mu); open(sys.argv[2],'a').write(json.dumps(r)+'\n')
        print(mu['definition'],'|',mu['claim'][:60],'->',r.get('error') or r['failed'],flush=True)
