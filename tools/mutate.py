#!/usr/bin/env python3
"""Mutation testing of the theorems (step 5 of the task), in a scratch copy.
   usage: mutate.py MUTANTS.py [ids...]
   A mutant is (id, file, old, new, definition, edit, claim, [property ids]).
   The model is edited, everything is rebuilt, and every lemma whose proof no
   longer goes through is replaced by an admitted one (in the scratch copy
   only).  Theorems that then depend on an admitted lemma have failed."""
import sys,re,os,subprocess,shutil,json,time
BASE='/tmp/mut/base'; WORK='/tmp/mut/w'+os.environ.get('MUTW','0'); J=os.environ.get('MUTJ','3')
def sh(cmd,cwd,timeout=3600):
    return subprocess.run(cmd,shell=True,cwd=cwd,stdout=subprocess.PIPE,stderr=subprocess.STDOUT,text=True,timeout=timeout).stdout
def prepare():
    shutil.rmtree(BASE,ignore_errors=True); os.makedirs('/tmp/mut',exist_ok=True)
    shutil.copytree('/verif/rocq',BASE)
    # what section variables each proof uses, by file (lemma names repeat over files)
    os.makedirs(BASE+'/logs',exist_ok=True)
    open(BASE+'/wrap.sh','w').write('#!/bin/sh\nfor f in "$@"; do :; done\nexec coqc -set "Suggest Proof Using" "$@" > '+BASE+'/logs/$(basename $f).log 2>&1\n')
    os.chmod(BASE+'/wrap.sh',0o755)
    sh(f'coq_makefile -f _CoqProject -o Makefile && make clean; make -j4 COQC={BASE}/wrap.sh > log.txt 2>&1',BASE)
    using={}
    for f in os.listdir(BASE+'/logs'):
        t=open(BASE+'/logs/'+f).read()
        for m in re.finditer(r'The proof of\s+(\S+)\s+should start with one of the following commands:\s*((?:Proof\s+using[^.]*\.\s*)+)',t):
            u=[x.strip() for x in re.findall(r'Proof\s+using([^.]*)\.',m.group(2))]
            using.setdefault(f[:-4]+':'+m.group(1),[]).append(u[0])
    json.dump(using,open(BASE+'/using.json','w'))
    print(len(using),'lemmas')
START=re.compile(r'^\s*(?:Local\s+|Global\s+|#\[\w+\]\s*)?(?:Lemma|Theorem|Corollary|Example|Fact|Remark|Definition|Fixpoint)\s+(\w+\'*)',re.M)
def admit(path,line,using):
    s=open(path).read(); pos=sum(len(l) for l in s.splitlines(True)[:line])
    cand=[m for m in START.finditer(s) if m.start()<pos and m.group(0).split()[0] in('Lemma','Theorem','Corollary','Example','Fact','Remark')]
    if not cand: return None
    m=cand[-1]; name=m.group(1)
    nxt=[x for x in START.finditer(s) if x.start()>m.start()]
    end=re.compile(r'\b(Qed|Defined|Admitted)\.').search(s,m.end())
    pf=re.compile(r'\bProof\b[^.]*\.').search(s,m.end())
    if not end or not pf or pf.start()>end.start() or s[:end.start()].count('\n')+1 < line: return None
    if end.group(1)=='Admitted': return None
    u=using.get(os.path.basename(path)+':'+name,[''])
    own=pf.group(0)[len('Proof'):].strip(' .')
    if own.startswith('using'): u=[own[len('using'):].strip()]
    u=u[0] if len(set(u))==1 else max(u,key=len)
    body=s[pf.start():end.end()]
    # keep the number of lines
    rep='Proof'+(' using '+u if u and u!='Type' else '')+'. Admitted.'+'\n'*body.count('\n')
    open(path,'w').write(s[:pf.start()]+rep+s[end.end():])
    return name
def run(mut,log):
    mid,f,old,new,definition,edit,claim,props=mut
    shutil.rmtree(WORK,ignore_errors=True); sh(f'cp -a {BASE} {WORK}','/tmp')
    using=json.load(open(BASE+'/using.json'))
    p=f'{WORK}/theories/{f}'; s=open(p).read()
    if s.count(old)!=1: print(mid,'NOT APPLICABLE',s.count(old)); return
    open(p,'w').write(s.replace(old,new))
    admitted=[]; t0=time.time(); status='ok'; skipped=[]
    for it in range(60):
        out=sh(f'make -k -j{J} COQC="timeout 600 coqc" 2>&1',WORK)
        errs=re.findall(r'File "\./theories/(\w+\.v)", line (\d+), characters [^\n]*\n(Error[^\n]*\n?[^\n]*)',out)
        if not errs:
            status='ok' if 'Error' not in out else 'stuck'; break
        prog=False
        seen=set()
        for (ff,ln,msg) in errs:
            if ff in seen: continue
            seen.add(ff)
            n=admit(f'{WORK}/theories/{ff}',int(ln),using)
            if n: admitted.append(ff[:-2]+'.'+n); prog=True
            else: skipped.append((ff,ln,msg.replace('\n',' ')))
        if not prog: status='stuck'; break
    # theorems depending on admitted lemmas
    thms=[]
    vo=[x for x in sorted(os.listdir(WORK+'/theories')) if x.startswith('Properties_') and x.endswith('.v')]
    files={}
    for x in vo:
        names=re.findall(r'^\s*(?:Theorem|Corollary)\s+(C\d\d_\w+)',open(f'{WORK}/theories/{x}').read(),re.M)
        files[x]=names
        if os.path.exists(f'{WORK}/theories/{x}o') and os.path.getmtime(f'{WORK}/theories/{x}o')==os.path.getmtime(f'{BASE}/theories/{x}o'): continue  # not rebuilt: does not depend on the edit
        if not os.path.exists(f'{WORK}/theories/{x}o'): thms+= [n+' (file did not build)' for n in names]; continue
        q=f'From Verif Require Import {x[:-2]}.\n'+''.join(f'Goal True. idtac "@@{n}". exact I. Qed.\nPrint Assumptions {n}.\n' for n in names)
        open(WORK+'/theories/Q.v','w').write(q)
        o=sh('coqc -Q . Verif Q.v',WORK+'/theories')
        for blk in o.split('@@')[1:]:
            n=blk.split('\n')[0].strip()
            if 'Closed under' not in blk: thms.append(n)
    rec={"id":mid,"definition":f'{f}: {definition}',"edit":edit,"claim":claim,"lemmas_failed":admitted,"theorems_failed":thms,"status":status,"skipped":skipped[:3],"seconds":int(time.time()-t0)}
    rec["caught"]=[q for q in props if any(t.startswith(q) for t in thms)]; rec["missed"]=[q for q in props if q not in rec["caught"]]
    open(log,'a').write(json.dumps(rec)+'\n')
    print(mid,status,rec["seconds"],'caught',rec["caught"],'MISSED' if rec["missed"] else '',rec["missed"],flush=True)
if __name__=='__main__':
    if sys.argv[1]=='prepare': prepare(); sys.exit()
    ns={}; exec(open(sys.argv[1]).read(),ns); ids=sys.argv[2:]
    for m in ns['MUTANTS']:
        if not ids or m[0] in ids:
            try: run(m,'/tmp/mut/raw.jsonl')
            except Exception as e: print(m[0],'EXC',e,flush=True)
