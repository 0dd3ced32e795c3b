#!/usr/bin/env python3
"""Regenerates ../MANIFEST.json.  Theorem names are collected from
rocq/theories/*Props.v by their Cnn_ prefix; status and notes are given here."""
import json, os, re, glob
here = os.path.dirname(os.path.abspath(__file__))
root = os.path.join(here, '..')
props = [json.loads(l) for l in open(os.path.join(root, 'properties.jsonl'))]
thms = {}
for fn in sorted(glob.glob(os.path.join(root, 'rocq/theories/*Props.v'))):
    for m in re.finditer(r'^ *(?:Theorem|Corollary) (C(\d+)_\w+)', open(fn).read(), re.M):
        thms.setdefault('C' + m.group(2), []).append(m.group(1))
notes = json.load(open(os.path.join(here, 'notes.json')))
claims = []
for p in props:
    t = thms.get(p['id'], [])
    n = notes.get(p['id'], {})
    if t:
        status = n.get('status', 'partial' if any(x.endswith('_partial') for x in t) else 'proved')
    else:
        status = n.get('status', 'not_applicable')
    claims.append(dict(property=p['id'], status=status, theorems=t, note=n.get('note', '')))
json.dump({'claims': claims}, open(os.path.join(root, 'MANIFEST.json'), 'w'), indent=1)
print({s: sum(c['status'] == s for c in claims) for s in ('proved', 'partial', 'not_applicable')})
print('without theorems:', [c['property'] for c in claims if not c['theorems']])
