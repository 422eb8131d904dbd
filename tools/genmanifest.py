#!/usr/bin/env python3
"""Generate MANIFEST.json from the theorems in rocq/theories/Props*.v and the notes below."""
import glob, json, os, re
here = os.path.dirname(os.path.abspath(__file__))
th = os.path.join(here, '..', 'rocq', 'theories')
thms = {}
for f in sorted(glob.glob(os.path.join(th, 'Props*.v'))):
    for n in re.findall(r'^Theorem (C\d\d_\w+)', open(f).read(), re.M):
        thms.setdefault(n[:3], []).append(n)
notes = json.load(open(os.path.join(here, 'notes.json')))
claims = []
for l in open(os.path.join(here, '..', 'properties.jsonl')):
    i = json.loads(l)['id']
    ts = thms.get(i, [])
    note = notes.get(i, {})
    status = note.get('status')
    if status is None:
        status = 'partial' if (not ts or any(t.endswith(('_partial', '_refuted')) for t in ts)) else 'proved'
    if not ts:
        continue
    claims.append({'property': i, 'status': status, 'theorems': ts, 'note': note.get('note', '')})
s = '{"claims": [\n' + ',\n'.join('  ' + json.dumps(c) for c in claims) + '\n]}\n'
open(os.path.join(here, '..', 'MANIFEST.json'), 'w').write(s)
print(len(claims), 'claims;', sum(len(c['theorems']) for c in claims), 'theorems;',
      [c['property'] for c in claims if c['status'] != 'proved'])
