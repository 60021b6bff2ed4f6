#!/usr/bin/env python3
"""Print Assumptions for every manifest theorem -> AXIOMS.md (needs a finished build in rocq/);
--new: only for those that AXIOMS.md does not list yet."""
import re,subprocess,glob,os,collections,sys
R='/verif/rocq'
thms=[]
for f in sorted(glob.glob(R+'/theories/P_*.v')):
    m=os.path.basename(f)[:-2]
    for t in re.findall(r'^Theorem (C\d+_\w+)',open(f).read(),re.M): thms.append((m,t))
thms.sort(key=lambda x:(int(re.match(r'C(\d+)',x[1]).group(1)),x[1]))
total=len(thms); cls=collections.OrderedDict()
if '--new' in sys.argv:
    names={'%s.%s'%x for x in thms}; known=set()
    for blk in open('/verif/AXIOMS.md').read().split('\n## ')[1:]:
        head,body=blk.split('\n',1)
        ax=() if head.startswith('Closed') else tuple(re.findall(r'`([^`]*)`',head))
        cls[ax]=[n for n in re.findall(r'`([^`]*)`',body) if n in names]; known|=set(cls[ax])
    thms=[x for x in thms if '%s.%s'%x not in known]
src=''.join('From Verif Require %s.\n'%m for m in sorted({m for m,_ in thms}))
for m,t in thms: src+='Goal True. idtac "@@%s.%s". exact I. Qed.\nPrint Assumptions %s.%s.\n'%(m,t,m,t)
os.makedirs('/tmp/ax',exist_ok=True)
open('/tmp/ax/ax.v','w').write(src)
o=subprocess.run(['coqc','-Q',R+'/theories','Verif','/tmp/ax/ax.v'],capture_output=True,text=True)
if o.returncode: print(o.stderr[-2000:]); raise SystemExit(1)
for blk in o.stdout.split('@@')[1:]:
    name,rest=blk.split('\n',1)
    ax=tuple(sorted(set(re.findall(r'^([\w.]+)\s*:',rest,re.M))-{'Axioms'}))
    ax=tuple(a for a in ax if a!='Axioms')
    cls.setdefault(ax,[]).append(name)
with open('/verif/AXIOMS.md','w') as f:
    f.write('# What `Print Assumptions` lists, theorem by theorem\n\nGenerated by `tools/axioms.py` from the built theories; %d theorems.\n'%total)
    for ax in sorted(cls,key=len):
        f.write('\n## '+(', '.join('`%s`'%a for a in ax) if ax else 'Closed under the global context (no axioms)')+'\n\n')
        f.write(', '.join('`%s`'%n for n in cls[ax])+'\n')
print({ax:len(v) for ax,v in cls.items()})
