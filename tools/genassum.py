#!/usr/bin/env python3
"""Write ASSUMPTIONS.md: what Print Assumptions lists for each property theorem.
With file names (PropsX.v ...): update the lines of these files only."""
import os, re, subprocess, sys
D=os.path.join(os.path.dirname(__file__),'..','rocq','theories')
out=['# Axioms used by each property theorem','',
 'Output of `Print Assumptions`, collected by `tools/genassum.py`.  All axioms are of the Coq standard library.','',
 '| theorem | axioms |','|---|---|']
F=os.path.join(D,'..','..','ASSUMPTIONS.md')
if sys.argv[1:]: out=open(F).read().rstrip('\n').split('\n')
for p in sorted(os.listdir(D)):
    if not re.match(r'Props\w*\.v$',p): continue
    if sys.argv[1:] and p not in sys.argv[1:]: continue
    src=open(os.path.join(D,p)).read()
    order=re.findall(r'Print Assumptions (\w+)\.',src)
    r=subprocess.run(['coqc','-w','none','-Q','.','Verif',p],cwd=D,capture_output=True,text=True)
    assert r.returncode==0, (p, r.stderr)
    blocks=re.split(r'(?m)^(?=Axioms:|Closed under the global context)',r.stdout)[1:]
    assert len(blocks)==len(order),(p,len(blocks),len(order))
    for t,b in zip(order,blocks):
        ax=sorted(set(re.findall(r'(?m)^([A-Za-z_][\w.]*)(?= |$|\n)',b))-{'Axioms','Closed'})
        out=[l for l in out if not l.startswith(f'| {t} |')]
        out.append(f"| {t} | {', '.join(ax) if ax else 'none'} |")
open(F,'w').write('\n'.join(out)+'\n')
