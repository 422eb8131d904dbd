#!/usr/bin/env python3
"""Generate the property files rocq/theories/Props*.v from the templates tools/Props*.in.

A template line "@Cxx_name" is replaced by the statement of the lemma
"Cxx_name_proof" found in the other files, closed by exact, followed by
Print Assumptions.  Everything else is copied."""
import glob, os, re
here = os.path.dirname(os.path.abspath(__file__))
th = os.path.join(here, '..', 'rocq', 'theories')
stm = {}
for f in sorted(glob.glob(os.path.join(th, '[!P]*.v')) + glob.glob(os.path.join(th, 'P[!r]*.v'))):
    s = open(f).read()
    for m in re.finditer(r'(?:Lemma|Theorem) (C\d\d_\w+)_proof\s*:(.*?)\.\s*\nProof', s, re.S):
        stm[m.group(1)] = m.group(2)
used = []
for t in sorted(glob.glob(os.path.join(here, 'Props*.in'))):
    out = []
    for line in open(t).read().split('\n'):
        m = re.match(r'@(\w+)$', line)
        if m:
            n = m.group(1)
            used.append(n)
            out.append('Theorem %s :%s.\nProof. exact %s_proof. Qed.\nPrint Assumptions %s.' % (n, stm[n], n, n))
        else:
            out.append(line)
    o = os.path.join(th, os.path.basename(t)[:-3] + '.v')
    new = '\n'.join(out)
    if not os.path.exists(o) or open(o).read() != new:
        open(o, 'w').write(new)
for n in stm:
    if n not in used:
        print('not in any property file:', n)
