#!/usr/bin/env python3
"""Apply seeded bugs to a scratch copy of the model, rebuild, and log which theorems fail.
usage: mutate.py SPEC.json   where SPEC is a list of {file, def, old, new, edit, breaks}"""
import json, os, re, subprocess, sys, shutil
SRC='/verif/rocq'; DST='/tmp/mut/rocq'; LOG='/verif/seeded/LOG.jsonl'
def sh(c,**k): return subprocess.run(c,shell=True,capture_output=True,text=True,**k)
specs=json.load(open(sys.argv[1]))
only=sys.argv[2:] 
def lemma_at(path,line):
    L=open(path).read().split('\n')
    for i in range(line-1,-1,-1):
        m=re.match(r'\s*(?:Theorem|Lemma|Example|Corollary|Fact|Definition|Fixpoint)\s+(\S+)',L[i])
        if m: return m.group(1)
    return '?'
BASE='/tmp/mut/base'
def restore(): sh(f'rm -rf {DST}; cp -a {BASE} {DST}')
sh('mkdir -p /tmp/mut')
sh(f'rm -rf {BASE}; cp -a {SRC} {BASE}')
sh(f'cd {BASE} && coq_makefile -f _CoqProject -o Makefile && make -j3')
restore()
for s in specs:
    if only and s['def'] not in only: continue
    p=f"{DST}/theories/{s['file']}"
    orig=open(p).read(); st=os.stat(p)
    if orig.count(s['old'])!=1:
        print('BAD PATTERN',s['def'],s['edit'],orig.count(s['old'])); continue
    open(p,'w').write(orig.replace(s['old'],s['new']))
    r=sh(f'cd {DST} && make -k -j3 2>&1')
    failed=[]
    for m in re.finditer(r'File "(\./theories/[^"]+)", line (\d+)[^\n]*\n(?!Warning)Error',r.stdout):
        failed.append(os.path.basename(m.group(1))+':'+lemma_at(DST+'/'+m.group(1)[2:],int(m.group(2))))
    props=[]
    mf=json.load(open('/verif/MANIFEST.json'))
    names={t for c in mf['claims'] for t in c['theorems']}
    for f in os.listdir(DST+'/theories'):
        if f.endswith('.v') and (not os.path.exists(f'{DST}/theories/{f}o') or os.path.getmtime(f'{DST}/theories/{f}o')<os.path.getmtime(p)):
            if f==s['file']: pass
            for t in re.findall(r'^(?:Theorem|Lemma)\s+(\w+)',open(f'{DST}/theories/{f}').read(),re.M):
                if t in names: props.append(t)
    built_ok = not failed
    print(s['def'],'|',s['edit'],'->','SURVIVED' if built_ok else failed, flush=True)
    rec=dict(definition=s['def'],edit=s['edit'],claim_broken=s['breaks'],
      theorems_failed=failed,unbuilt_property_theorems=([] if built_ok else sorted(set(props))),theorems_tightened=s.get('tightened',[]))
    if not built_ok or s.get('logsurvive'): open(LOG,'a').write(json.dumps(rec)+'\n')
    open(p,'w').write(orig)
    restore()
