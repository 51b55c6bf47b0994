#!/usr/bin/env python3
"""Fill in sections 5 and 6 of DESIGN.md: the property table (from properties.jsonl and MANIFEST.json)
and the record of Print Assumptions (by compiling rocq/theories/Assumptions.v after a full build)."""
import json, os, re, subprocess
top = os.path.dirname(os.path.dirname(os.path.abspath(__file__)))
props = [json.loads(l) for l in open(os.path.join(top, 'properties.jsonl'))]
claims = {c['property']: c for c in json.load(open(os.path.join(top, 'MANIFEST.json')))['claims']}
where = {}
d = os.path.join(top, 'rocq/theories')
for f in sorted(os.listdir(d)):
    if f.startswith('Props') and f.endswith('.v'):
        for n in re.findall(r'^Theorem\s+(C\d\d\w*)', open(os.path.join(d, f)).read(), re.M):
            where[n] = f
t = ['| property | title | status | theorems | refutations |', '|---|---|---|---|---|']
for p in props:
    c = claims.get(p['id'])
    if not c:
        continue
    pos = [x for x in c['theorems'] if not x.endswith('_refuted')]
    neg = [x for x in c['theorems'] if x.endswith('_refuted')]
    files = sorted({where[x] for x in c['theorems']})
    t.append('| %s | %s | %s | %d in %s | %s |' % (p['id'], p['title'], c['status'], len(pos),
             ', '.join('`%s`' % f for f in files), ', '.join('`%s`' % x for x in neg) or '-'))
r = subprocess.run(['coqc', '-Q', '.', 'Verif', '-o', '/tmp/Assumptions.vo', 'Assumptions.v'], cwd=d, capture_output=True, text=True)
assert r.returncode == 0, r.stderr
names = re.findall(r'^Print Assumptions \w+\.(\w+)\.', open(os.path.join(d, 'Assumptions.v')).read(), re.M)
blocks = re.split(r'^(?=Axioms:|Closed under)', r.stdout, flags=re.M)[1:]
assert len(blocks) == len(names), (len(blocks), len(names))
groups = {}
for n, b in zip(names, blocks):
    ax = tuple(sorted(set(re.findall(r'^([A-Za-z_][\w.]*)\s*(?=:|$)', b, re.M)) - {'Axioms', 'Closed'}))
    groups.setdefault(ax, []).append(n)
a = []
for ax, ns in sorted(groups.items(), key=lambda x: (len(x[0]), x[0])):
    a.append('* %s (%d theorems): %s' % ('**No axioms**' if not ax else ', '.join('`%s`' % x for x in ax), len(ns),
             ', '.join(ns)))
path = os.path.join(top, 'DESIGN.md')
s = open(path).read()
def fill(s, tag, body):
    return re.sub(r'(<!-- %s -->\n).*?(<!-- end %s -->)' % (tag, tag), lambda m: m.group(1) + body + '\n' + m.group(2), s, flags=re.S)
s = fill(s, 'table', '\n'.join(t))
s = fill(s, 'assumptions', '\n'.join(a))
open(path, 'w').write(s)
