#!/usr/bin/env python3
"""Apply model mutations in a scratch copy, rebuild, log what no longer checks.
usage: seed.py mutations.json   (list of {file, old, new, claim, definition, properties:[..], [count]})"""
import json,sys,subprocess,re,os,glob,datetime
SRC='/verif/rocq'; P='/tmp/seed0'; S='/tmp/seed'
muts=json.load(open(sys.argv[1]))
def sh(c,t=2400): return subprocess.run(c,shell=True,stdout=subprocess.PIPE,stderr=subprocess.STDOUT,text=True,timeout=t).stdout
sh(f'rm -rf {P} && cp -a {SRC} {P}')
sh(f'cd {P} && coq_makefile -f _CoqProject -o Makefile && make -j4')
for m in muts:
    sh(f'rm -rf {S} && cp -a {P} {S}')
    f=f'{S}/theories/{m["file"]}'
    s=open(f).read()
    n=s.count(m['old'])
    if n!=m.get('count',1): print('BAD MUTATION',m['file'],repr(m['old']),n); continue
    open(f,'w').write(s.replace(m['old'],m['new']))
    out=sh(f'cd {S} && (ulimit -v 9000000; timeout 2000 make -k -j4)')
    errs=[]
    for mm in re.finditer(r'File "\./theories/(\w+)\.v", line (\d+),.*?\n(Error:.*)',out):
        fn,ln=mm.group(1),int(mm.group(2))
        name=None
        for i,l in enumerate(open(f'{S}/theories/{fn}.v').read().split('\n')[:ln]):
            k=re.match(r'\s*(?:Local )?(?:Theorem|Lemma|Corollary|Example|Definition|Fixpoint|Instance|Program Definition)\s+(\w+)',l)
            if k: name=k.group(1)
        errs.append(f'{fn}.{name}')
    # a property file is lost when a file it (transitively) requires did not compile
    def reqs(n,seen):
        if n in seen: return seen
        seen.add(n)
        for x in re.findall(r'From Verif Require (?:Import|Export)? ?([\w\s]+)\.',open(f'{S}/theories/{n}.v').read()):
            for k in x.split(): reqs(k,seen)
        return seen
    bad={e.split('.')[0] for e in errs}
    lost=[]
    for pf in sorted(glob.glob(f'{S}/theories/Properties*.v')):
        if reqs(os.path.basename(pf)[:-2],set())&bad:
            lost+=re.findall(r'^\s*(?:Theorem|Corollary)\s+(C\d\d\w*)',open(pf).read(),re.M)
    rec=dict(time=datetime.datetime.utcnow().isoformat(timespec='seconds'),file=m['file'],definition=m['definition'],edit=f"{m['old']!r} -> {m['new']!r}",claim_broken=m['claim'],
       first_failing=errs,theorems_failed=[t for t in lost if t[:3] in m['properties']] or lost,caught=bool(errs),theorems_tightened=m.get('tightened',[]))
    print(m['file'],m['definition'],'CAUGHT' if errs else '*** NOT CAUGHT ***',errs[:3],flush=True)
    open('/verif/seeded/LOG.jsonl','a').write(json.dumps(rec)+'\n')
