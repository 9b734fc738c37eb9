#!/usr/bin/env python3
"""Collect, for every theorem named in the T_*.v files, the axioms listed by Print Assumptions, grouped by axiom set, and
write the table into DESIGN.md.  Needs a finished build in rocq/."""
import glob, os, re, subprocess, tempfile
root = os.path.join(os.path.dirname(os.path.abspath(__file__)), '..', 'rocq')
mods, thms = [], []
for f in sorted(glob.glob(os.path.join(root, 'theories', 'T_*.v'))):
    m = os.path.basename(f)[:-2]
    mods.append(m)
    thms += [(m, t) for t in re.findall(r'^(?:Theorem|Corollary)\s+(C\d\d_\w+)', open(f).read(), re.M)]
d = tempfile.mkdtemp()
with open(os.path.join(d, 'q.v'), 'w') as g:
    g.write('From Verif Require %s.\n' % ' '.join(mods))
    for m, t in thms:
        g.write('Definition mark_%s := tt.\nPrint mark_%s.\nPrint Assumptions Verif.%s.%s.\n' % (t, t, m, t))
out = subprocess.run(['coqc', '-Q', os.path.join(root, 'theories'), 'Verif', 'q.v'], cwd=d, capture_output=True, text=True)
if out.returncode: raise SystemExit(out.stdout[-2000:] + out.stderr[-2000:])
groups = {}
for part in re.split(r'^mark_', out.stdout, flags=re.M)[1:]:
    name = part.split(' ', 1)[0]
    body = part.split('Axioms:', 1)[1] if 'Axioms:' in part else ''
    ax = tuple(sorted(set(re.findall(r'^([A-Z]\w*(?:\.\w+)+)\s*(?::|$)', body, re.M))))
    if not ax: assert 'Closed under the global context' in part, part
    groups.setdefault(ax, []).append(name)
lines = []
for ax, names in sorted(groups.items(), key=lambda x: len(x[0])):
    lines.append('\n### ' + ('Closed under the global context (no axioms)' if not ax else 'Axioms: ' + ', '.join('`%s`' % a for a in ax)) + '\n')
    lines.append(', '.join('`%s`' % n for n in sorted(names)))
lines.append('\nTotal: %d theorems.\n' % sum(map(len, groups.values())))
text = '\n'.join(lines)
design = os.path.join(root, '..', 'DESIGN.md')
s = open(design).read()
i = s.index('Output of `tools/assumptions.py`.'); j = s.index('\n## Modelled and not modelled')
open(design, 'w').write(s[:i] + 'Output of `tools/assumptions.py`.\n' + text + s[j:])
print(lines[-1].strip())
