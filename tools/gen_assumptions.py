#!/usr/bin/env python3
"""Runs Print Assumptions on every theorem of MANIFEST.json; writes ASSUMPTIONS.md.
The theories must have been built in rocq/theories."""
import json, re, subprocess, os, glob
V = '/verif'
man = json.load(open(V + '/MANIFEST.json'))
names = [t for c in man['claims'] for t in c['theorems']]
where = {}
for f in sorted(glob.glob(V + '/rocq/theories/Prop*.v')):
    for m in re.finditer(r'^Theorem (C\d\d_\w+)', open(f).read(), re.M):
        where[m.group(1)] = os.path.basename(f)[:-2]
groups = {}
byfile = {}
for n in names:
    byfile.setdefault(where[n], []).append(n)
for f, ns in byfile.items():
    src = 'From Verif Require %s.\n' % f
    for n in ns:
        src += 'Goal True. idtac "@@ %s". exact I. Qed.\nPrint Assumptions %s.%s.\n' % (n, f, n)
    open('/tmp/Assum.v', 'w').write(src)
    out = subprocess.run(['coqc', '-Q', V + '/rocq/theories', 'Verif', '/tmp/Assum.v'], capture_output=True, text=True).stdout
    for part in out.split('@@ ')[1:]:
        n, rest = part.split('\n', 1)
        ax = tuple(sorted(m for m in re.findall(r'^([\w.]+)\s*(?::|$)', rest, re.M) if m not in ('Axioms', 'Closed')))
        groups.setdefault(ax, []).append(n.strip())
with open(V + '/ASSUMPTIONS.md', 'w') as o:
    o.write('# Axioms used, per theorem\n\nOutput of `Print Assumptions` (tools/gen_assumptions.py). All the axioms belong to the standard library of Coq.\n')
    for ax, ns in sorted(groups.items()):
        o.write('\n## ' + (', '.join('`%s`' % a for a in ax) if ax else 'No axiom (closed under the global context)') + '\n\n')
        o.write(', '.join('`%s`' % n for n in sorted(ns)) + '\n')
print({a: len(n) for a, n in groups.items()}, sum(len(n) for n in groups.values()), len(names))
