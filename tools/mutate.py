#!/usr/bin/env python3
"""Apply each mutation (model edit) in a scratch copy, rebuild, record which theorem fails.
usage: mutate.py muts.json   (list of {file, def, old, new, claim})"""
import json,sys,os,re,subprocess,shutil
muts=json.load(open(sys.argv[1]))
log='/verif/seeded/LOG.jsonl'
W=os.environ.get('MUT_DIR','/tmp/mutwork')
T=os.environ.get('MUT_TARGETS','')  # make targets (default: all)
def sh(c): return subprocess.run(c,shell=True,capture_output=True,text=True)
os.makedirs(W,exist_ok=True)
sh(f'rm -rf {W}; cp -a /verif/rocq {W}')
r=sh(f'cd {W} && coq_makefile -f _CoqProject -o Makefile && make -j4 {T}')
assert r.returncode==0, r.stderr[-2000:]
for m in muts:
    p=f"{W}/theories/{m['file']}"
    orig=open(p).read()
    assert orig.count(m['old'])>=1, ('old not found',m)
    new=orig.replace(m['old'],m['new'],1) if not m.get('all') else orig.replace(m['old'],m['new'])
    st=os.stat(p)
    open(p,'w').write(new)
    r=sh(f'cd {W} && timeout 1500 make -k -j2 COQC="timeout 240 coqc" {T}')
    failed=[]
    for f,ln in re.findall(r'File "\./theories/(\S+?)", line (\d+)[^\n]*\n(?:Error)',r.stdout+r.stderr):
        lines=open(f'{W}/theories/{f}').read().split('\n')[:int(ln)]
        name=None
        for l in reversed(lines):
            k=re.match(r'\s*(?:Local )?(?:Lemma|Theorem|Example|Corollary|Definition|Fixpoint|Fact|Instance)\s+(\w+)',l)
            if k: name=k.group(1);break
        failed.append(f'{f[:-2]}.{name}')
    for f in re.findall(r'theories/(\w+)\.vo\] Error 124',r.stdout+r.stderr): failed.append(f'{f} (no proof found within 240 s, normally seconds)')
    if r.returncode!=0 and not failed: failed=['(build failed) '+(r.stdout+r.stderr)[-300:]]
    e={"definition":m['def'],"file":m['file'],"edit":f"{m['old']}  ==>  {m['new']}","claim_broken":m['claim'],"theorems_failed":failed,"theorems_tightened":m.get('tightened',[])}
    print('KILLED ' if failed else '*** SURVIVED', m['def'],'|',m['new'][:60].replace('\n',' '),'|',failed,flush=True)
    if '--dry' not in sys.argv:
        open(log,'a').write(json.dumps(e)+'\n')
    open(p,'w').write(orig)
sh(f'cd {W} && make -j4 {T}')
