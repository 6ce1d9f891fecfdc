#!/usr/bin/env python3
"""usage: mut.py file.v 'old' 'new' definition 'edit descr' 'claim broken' [tightened]
   env PROPS=comma list of property theorem names prefix that should fail"""
import sys,os,subprocess,shutil,re,json
f,old,new,defn,edit,claim=sys.argv[1:7]
tight=sys.argv[7].split(',') if len(sys.argv)>7 else []
D='/tmp/mutscratch'
subprocess.run(f'rm -rf {D}; cp -a /verif/rocq {D}',shell=True)
p=f'{D}/theories/{f}'
s=open(p).read()
if s.count(old)!=1: print('OLD COUNT',s.count(old)); sys.exit(1)
open(p,'w').write(s.replace(old,new))
r=subprocess.run('coq_makefile -f _CoqProject -o Makefile >/dev/null && timeout 400 make -k -j4 2>&1',shell=True,cwd=D,capture_output=True,text=True)
fails=[]
for m in re.finditer(r'File "\./theories/(\w+)\.v", line (\d+), characters [^\n]*\n((?:.*\n){0,3})',r.stdout):
    if 'Warning' in m.group(3).split('\n')[0]: continue
    lines=open(f'{D}/theories/{m.group(1)}.v').read().split('\n')
    name='?'
    for i in range(int(m.group(2))-1,-1,-1):
        mm=re.match(r'\s*(Lemma|Theorem|Example|Definition|Fixpoint|Corollary|Fact|Local Lemma|Instance)\s+(\w+)',lines[i])
        if mm: name=mm.group(2);break
    fails.append(m.group(1)+'.'+name)

def reqs(n):
    t=open(f'{D}/theories/{n}.v').read()
    out=set()
    for m in re.finditer(r'From Verif Require (?:Import|Export)\s+([^.]*)\.',t): out|=set(m.group(1).split())
    return out
def closure(n,seen):
    if n in seen: return seen
    seen.add(n)
    for x in reqs(n): closure(x,seen)
    return seen
ff={x.split('.')[0] for x in fails}
un=[]
for v in sorted(os.listdir(D+'/theories')):
    if v.endswith('Props.v') and closure(v[:-2],set())&ff:
        un+=re.findall(r'^Theorem (\w+)',open(f'{D}/theories/{v}').read(),re.M)
res=dict(definition=defn,file=f,edit=edit,claim=claim,failed_at=fails,theorems_failed=un,theorems_tightened=tight)
print(json.dumps(res))
if fails or tight or os.environ.get('FORCE'):
    open('/verif/seeded/LOG.jsonl','a').write(json.dumps(res)+'\n')
else: print('*** SURVIVED')
