#!/usr/bin/env python3
"""Rewrite the axiom table at the end of DESIGN.md from what Print Assumptions prints.

Needs a finished build in rocq/; recompiles the Props*.v files one after the other."""
import glob, os, re, subprocess, tempfile
ROOT = os.path.dirname(os.path.dirname(os.path.abspath(__file__)))
R = os.path.join(ROOT, 'rocq')
rows = []
for f in sorted(glob.glob(os.path.join(R, 'theories/Props*.v'))):
    names = re.findall(r'^Print Assumptions (\w+)\.', open(f).read(), re.M)
    with tempfile.TemporaryDirectory() as d:
        out = subprocess.run(['coqc', '-Q', 'theories', 'Verif', '-o', os.path.join(d, os.path.basename(f) + 'o'), f],
                             cwd=R, capture_output=True, text=True).stdout
    blocks = re.split(r'^(?=Axioms:|Closed under the global context)', out, flags=re.M)[1:]
    assert len(blocks) == len(names), (f, len(blocks), len(names))
    for n, b in zip(names, blocks):
        ax = [] if b.startswith('Closed') else sorted(set(
            m for m in re.findall(r'^([A-Za-z_][\w.]*)(?=\s*:|$)', b, re.M) if m not in ('Axioms', 'Closed')))
        rows.append((n, tuple(ax)))
groups = {}
for n, a in rows:
    groups.setdefault(a, []).append(n)
txt = []
for a, ns in sorted(groups.items(), key=lambda t: len(t[0])):
    txt.append(('No axioms ("Closed under the global context")' if not a else ', '.join('`%s`' % x for x in a))
               + ' - %d theorems:\n' % len(ns) + ', '.join('`%s`' % n for n in ns) + '.\n')
p = os.path.join(ROOT, 'DESIGN.md')
s = open(p).read()
mark = '<!-- axioms -->\n'
s = s.split(mark)[0].rstrip('\n') + '\n\n' + mark + '### Axioms per theorem (generated by tools/gen_axioms.py)\n\n' + '\n'.join(txt)
open(p, 'w').write(s)
print([(len(a), len(n)) for a, n in groups.items()])
