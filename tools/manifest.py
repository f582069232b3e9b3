#!/usr/bin/env python3
"""Write MANIFEST.json: theorems named Cxx_... in rocq/theories/Props belong to property Cxx; notes come from tools/notes.json.

A property is "proved" if tools/notes.json marks it so, otherwise "partial" if it has theorems."""
import json, re, glob, os
root = os.path.dirname(os.path.dirname(os.path.abspath(__file__)))
notes = json.load(open(root + '/tools/notes.json'))
props = [json.loads(l)['id'] for l in open(root + '/properties.jsonl') if l.strip()]
thms = {}
for f in sorted(glob.glob(root + '/rocq/theories/Props/*.v')):
    for m in re.finditer(r'^\s*Theorem\s+((C\d\d)_\w+)', open(f).read(), re.M):
        thms.setdefault(m.group(2), []).append(m.group(1))
claims = []
for p in props:
    if p not in thms:
        continue
    st, note = notes.get(p, ['partial', 'work in progress'])
    claims.append({'property': p, 'status': st, 'theorems': thms[p], 'note': note})
json.dump({'claims': claims}, open(root + '/MANIFEST.json', 'w'), indent=1)
print(len(claims), 'of', len(props), 'properties;', sum(len(c['theorems']) for c in claims), 'theorems')
print('open:', [p for p in props if p not in thms])
mods = sorted(os.path.basename(f)[:-2] for f in glob.glob(root + '/rocq/theories/Props/*.v') if not f.endswith('Assumptions.v'))
with open(root + '/rocq/theories/Props/Assumptions.v', 'w') as h:
    h.write('(** Axioms used by every property theorem (generated by tools/manifest.py). *)\n')
    h.write('From Verif Require Import ' + ' '.join('Props.' + m for m in mods) + '.\n')
    for c in claims:
        for t in c['theorems']:
            h.write('Print Assumptions %s.\n' % t)
