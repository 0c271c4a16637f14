#!/usr/bin/env python3
"""Runs Print Assumptions for every theorem of the manifest (a scratch file outside /verif) and writes,
from
its output, the table /verif/ASSUMPTIONS.md."""
import json,re,os,subprocess,glob
here=os.path.dirname(os.path.dirname(os.path.abspath(__file__)))
th=os.path.join(here,'rocq','theories')
names=[t for c in json.load(open(os.path.join(here,'MANIFEST.json')))['claims'] for t in c['theorems']]
where={}
proj=open(os.path.join(here,'rocq','_CoqProject')).read()
files=[f for f in re.findall(r'theories/(\w+)\.v',proj) if f.startswith('Prop')]
for f in files:
    for m in re.finditer(r'^(?:Theorem|Lemma|Corollary)\s+(\w+)',open(os.path.join(th,f+'.v')).read(),re.M):
        where.setdefault(m.group(1),f)
out=['',
     'From Verif Require '+' '.join(files)+'.']
for n in names: out.append('Print Assumptions Verif.%s.%s.'%(where[n],n))
open('/tmp/Assumptions.v','w').write('\n'.join(out)+'\n')
r=subprocess.run(['coqc','-w','none','-Q','.','Verif','/tmp/Assumptions.v'],cwd=th,capture_output=True,text=True)
assert r.returncode==0,r.stderr
chunks=[]
for l in r.stdout.split('\n'):
    if l.startswith('Closed under') : chunks.append([]) ; cur=None
    elif l.startswith('Axioms:'): cur=[]; chunks.append(cur)
    elif re.match(r'^[A-Za-z_][\w\.]* ?(:|$)',l): cur.append(l.split(':')[0].strip())
assert len(chunks)==len(names),(len(chunks),len(names))
groups={}
for n,c in zip(names,chunks): groups.setdefault(tuple(sorted(c)),[]).append(n)
o=['# What Print Assumptions lists for each theorem','','Generated by `tools/gen_assumptions.py` by running Print Assumptions on every theorem of MANIFEST.json.','']
for k,v in sorted(groups.items(),key=lambda x:len(x[0])):
    o.append('## '+(', '.join('`%s`'%a for a in k) if k else 'Closed under the global context (no axioms)')); o.append('')
    o.append(', '.join(v)); o.append('')
open(os.path.join(here,'ASSUMPTIONS.md'),'w').write('\n'.join(o))
print({k:len(v) for k,v in groups.items()})
