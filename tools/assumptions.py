"""Rewrites section 5 of DESIGN.md from the output of Props/Assumptions.v:
   coqc -q -Q theories Verif theories/Props/Assumptions.v > out.txt; python3 tools/assumptions.py out.txt"""
import re, sys
names = re.findall(r'^Print Assumptions (\S+)\.$', open('/verif/rocq/theories/Props/Assumptions.v').read(), re.M)
blocks = re.split(r'^(?=Axioms:|Closed under)', open(sys.argv[1]).read(), flags=re.M)[1:]
assert len(names) == len(blocks), (len(names), len(blocks))
groups = {}
for n, b in zip(names, blocks):
    ax = tuple(sorted(set(re.findall(r'^([A-Z][\w.\']*\.[\w\']+)', b, re.M)) - {'Axioms'}))
    groups.setdefault(ax, []).append(n)
out = ['## 5. Axioms', '',
       'Result of `Print Assumptions` (in `Props/Assumptions.v`) for every property theorem. All axioms belong to the',
       'standard library (real numbers and classical logic); the development has none of its own.', '']
for ax, ns in sorted(groups.items(), key=lambda g: len(g[0])):
    out.append('* ' + (', '.join('`%s`' % a for a in ax) if ax else 'none ("Closed under the global context")') + ':')
    line = ' '
    for n in ns:
        if len(line) + len(n) > 118:
            out.append(line); line = ' '
        line += ' ' + n
    out.append(line)
d = open('/verif/DESIGN.md').read().split('\n## 5. ')[0].rstrip()
open('/verif/DESIGN.md', 'w').write(d + '\n\n' + '\n'.join(out) + '\n')
