#!/usr/bin/env python3
"""Mutation testing: apply one edit to a scratch copy of the model (outside /verif), rebuild, record what fails.
usage: mutate.py MUTANTS.json [name ...]   (each mutant: name,file,old,new,definition,edit,claim[,equivalent])"""
import json, os, re, shutil, subprocess, sys, time
SRC=os.environ.get('MSRC','/tmp/mut/snap'); W='/tmp/mut/'+os.environ.get('MW','w'); LOG=os.environ.get('MLOG','/tmp/mut/log.jsonl')
J=os.environ.get('J','2')
def decls(path):
    out=[]
    for n,l in enumerate(open(path),1):
        m=re.match(r'\s*(?:Local |Global |#\[.*?\] ?)?(Theorem|Lemma|Definition|Fixpoint|Example|Corollary|Instance|Record|Inductive)\s+([\w\']+)',l)
        if m: out.append((n,m.group(2)))
    return out
def enclosing(path,line):
    r='?'
    for n,d in decls(path):
        if n<=line: r=d
    return r
muts=json.load(open(sys.argv[1])); want=set(sys.argv[2:])
man=json.load(open('/verif/MANIFEST.json'))
mth={t for c in man['claims'] for t in c['theorems']}
for m in muts:
    if want and m['name'] not in want: continue
    subprocess.run(['mkdir','-p',W]); (subprocess.run(['rm','-rf',W]), subprocess.run(['cp','-a',SRC,W],check=True))
    p=W+'/theories/'+m['file']; s=open(p).read()
    edits=m['edits'] if 'edits' in m else [[m['old'],m['new']]]
    bad=False
    for o,n in edits:
        if s.count(o)!=m.get('count',1): print(m['name'],'BAD MATCH',s.count(o)); bad=True
        s=s.replace(o,n)
    if bad: continue
    open(p,'w').write(s); t0=time.time()
    subprocess.run('coq_makefile -f _CoqProject -o Makefile',shell=True,cwd=W,stdout=subprocess.DEVNULL)
    r=subprocess.run('ulimit -v 7000000; timeout 1500 make -k -j'+J,shell=True,cwd=W,capture_output=True,text=True)
    txt=r.stdout+r.stderr
    fails=[]
    for f,l in re.findall(r'File "\./theories/(\w+\.v)", line (\d+)[^\n]*\n(?:Error|.*\nError)',txt):
        fails.append(f[:-2]+'.'+enclosing(W+'/theories/'+f,int(l)))
    if not fails:
        fails=[f[:-2]+'.'+enclosing(W+'/theories/'+f,int(l)) for f,l in re.findall(r'File "\./theories/(\w+\.v)", line (\d+)',txt)]
    files=[l.strip() for l in open(W+'/_CoqProject') if l.strip().endswith('.v')]
    unb=[]; 
    for f in files:
        vo=W+'/'+f[:-2]+'.vo'
        if not os.path.exists(vo) or os.path.getmtime(vo)<t0 and f.split('/')[-1] in [x.split('.')[0]+'.v' for x in fails]: unb.append(f)
    # transitive dependents of failed files
    dep={}
    for l in subprocess.run('coqdep -Q theories Verif '+' '.join(files),shell=True,cwd=W,capture_output=True,text=True).stdout.splitlines():
        a=l.split(':')
        if len(a)==2 and a[0].split()[0].endswith('.vo'):
            dep[a[0].split()[0]]=[x for x in a[1].split() if x.endswith('.vo')]
    failed={'theories/'+x.split('.')[0]+'.vo' for x in fails}
    ch=True
    while ch:
        ch=False
        for k,v in dep.items():
            if k not in failed and any(x in failed for x in v): failed.add(k); ch=True
    lost=sorted(t for f in failed for _,t in decls(W+'/'+f[:-1]) if t in mth)
    rec={'name':m['name'],'definition':m['definition'],'edit':m['edit'],'claim_broken':m['claim'],
         'survived':r.returncode==0,'first_failing':sorted(set(fails)),'theorems_failed':lost,'seconds':int(time.time()-t0)}
    if m.get('equivalent'): rec['equivalent']=m['equivalent']
    open(LOG,'a').write(json.dumps(rec)+'\n'); print(json.dumps(rec)[:400],flush=True)
