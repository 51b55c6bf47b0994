#!/usr/bin/env python3
"""Collect the theorems named Cnn_* in rocq/theories/Props*.v; write MANIFEST.json and
rocq/theories/Assumptions.v (one Print Assumptions per theorem)."""
import glob, json, os, re
top = os.path.dirname(os.path.dirname(os.path.abspath(__file__)))
notes = json.load(open(os.path.join(top, 'tools/notes.json')))
props = [json.loads(l) for l in open(os.path.join(top, 'properties.jsonl'))]
thms, files = {}, []
for f in sorted(glob.glob(os.path.join(top, 'rocq/theories/Props*.v'))):
    names = re.findall(r'^Theorem\s+(C\d\d\w*)', open(f).read(), re.M)
    files.append((os.path.basename(f)[:-2], names))
    for n in names:
        thms.setdefault(n[:3], []).append(n)
claims = []
for p in props:
    i = p['id']
    t = thms.get(i, [])
    if not t:
        print('no theorem for', i, p['title'])
        continue
    n = notes.get(i, {})
    st = n.get('status', 'partial' if any(x.endswith('_partial') for x in t) else 'proved')
    claims.append({'property': i, 'status': st, 'theorems': t, 'note': n.get('note', '')})
json.dump({'claims': claims}, open(os.path.join(top, 'MANIFEST.json'), 'w'), indent=1)
with open(os.path.join(top, 'rocq/theories/Assumptions.v'), 'w') as o:
    o.write('(** Generated by tools/mkmanifest.py: the assumptions of every listed theorem. *)\n')
    for f, names in files:
        if names:
            o.write('From Verif Require %s.\n' % f)
    for f, names in files:
        for n in names:
            o.write('Print Assumptions %s.%s.\n' % (f, n))
