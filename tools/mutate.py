#!/usr/bin/env python3
"""mutate.py SPEC.json : for each {def, file, old, new, edit, claim} edit a scratch copy of rocq/, build with -k, and
append to seeded/LOG.jsonl the theorems at which the build stopped. Runs outside of /verif (in /tmp/mut)."""
import json,sys,os,re,subprocess,shutil
root='/verif'; spec=json.load(open(sys.argv[1])); tag=os.path.basename(sys.argv[1]).split('.')[0]
log=os.path.join(root,'seeded','LOG.jsonl')
os.makedirs(os.path.dirname(log),exist_ok=True)
def deps():
    d={}
    for l in open(root+'/rocq/_CoqProject'):
        if l.startswith('theories/'):
            f=l.strip(); m=os.path.basename(f)[:-2]
            txt=open(root+'/rocq/'+f).read(); r=set()
            for x in re.findall(r'From Verif Require Import ([^.]*)\.',txt): r|=set(x.split())
            d[m]=r
    return d
D=deps()
def users(ms):
    bad=set(ms); ch=True
    while ch:
        ch=False
        for m,r in D.items():
            if m not in bad and r&bad: bad.add(m); ch=True
    return bad
for k,s in enumerate(spec):
    w=f'/tmp/mut/{tag}{k}'; shutil.rmtree(w,ignore_errors=True); os.makedirs('/tmp/mut',exist_ok=True)
    shutil.copytree(root+'/rocq',w)
    p=f"{w}/theories/{s['file']}"; t=open(p).read()
    if t.count(s['old'])!=1: print('BAD SPEC',s['def'],t.count(s['old'])); continue
    open(p,'w').write(t.replace(s['old'],s['new']))
    subprocess.run('coq_makefile -f _CoqProject -o Makefile',shell=True,cwd=w,capture_output=True)
    r=subprocess.run('timeout 1500 make -k -j4',shell=True,cwd=w,capture_output=True,text=True)
    out=r.stdout+r.stderr; fails=[]; mods=[]
    for f,line in re.findall(r'File "\./theories/(\w+)\.v", line (\d+), characters [^\n]*\n(?:Error)',out):
        src=open(f'{w}/theories/{f}.v').read().split('\n'); n=int(line)
        while n>0 and not re.match(r'\s*(Theorem|Lemma|Example|Definition|Fixpoint|Corollary|Program)\b',src[n-1]): n-=1
        name=re.match(r'\s*\w+\s+(\w+)',src[n-1]).group(1) if n>0 else '?'
        fails.append(f'{f}.{name}'); mods.append(f)
    bad=[m for m in users(mods)] if mods else []
    props=sorted(m for m in bad if m.startswith('Properties') or m=='Properties')
    e={"definition":s['def'],"edit":s['edit'],"claim_broken":s['claim'],"theorems_failed":fails,
       "property_files_not_built":props,"theorems_tightened":s.get('tightened',[])}
    if not fails: e["survived"]=True
    open(log,'a').write(json.dumps(e)+'\n')
    print(('SURVIVED ' if not fails else 'killed ')+s['def'],fails,flush=True)
    shutil.rmtree(w,ignore_errors=True)
