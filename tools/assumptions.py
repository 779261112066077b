#!/usr/bin/env python3
"""Print Assumptions for every Theorem of theories/P_*.v (needs a built tree); groups theorems by the set of axioms they use."""
import re,glob,subprocess,os,sys
R=os.path.join(os.path.dirname(os.path.abspath(__file__)),'..','rocq'); os.chdir(R)
th=[]
for f in sorted(glob.glob('theories/P_*.v')):
    m=os.path.basename(f)[:-2]
    for t in re.findall(r'^\s*Theorem\s+(C\d+\w*)',open(f).read(),re.M): th.append((m,t))
mods=sorted({m for m,_ in th})
groups={}
out='From Verif Require '+' '.join(mods)+'.\n'
for m,t in th: out+=f'Print Assumptions Verif.{m}.{t}.\n'
open('/tmp/Asm.v','w').write(out)
r=subprocess.run(['coqc','-Q','theories','Verif','/tmp/Asm.v'],capture_output=True,text=True)
txt=r.stdout+r.stderr; open('/tmp/asm.txt','w').write(txt)
parts=re.split(r'^(Axioms:|Closed under the global context)$',txt,flags=re.M)
blocks=[parts[i+1] for i in range(1,len(parts),2)]
assert len(blocks)==len(th),(len(blocks),len(th),txt[-500:])
res={t:tuple(sorted(set(re.findall(r'^([A-Za-z_][\w.]*)(?:\s*:|\s*$)',b,re.M)))) for (m,t),b in zip(th,blocks)}
for (m,t) in th:
    groups.setdefault(res.get(t,('MISSING',)),[]).append(t)
for g in sorted(groups,key=len):
    print('* '+(', '.join('`%s`'%a for a in g) or 'closed under the global context')+f' ({len(groups[g])} theorems): '+', '.join(groups[g])+'\n')
sys.stderr.write(str(len(th))+' theorems\n')
