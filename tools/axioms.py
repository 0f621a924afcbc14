#!/usr/bin/env python3
"""Rewrite section 6 of DESIGN.md (between the axioms markers) from the Print Assumptions output for each
property theorem.  Run after a build."""
import re, os, glob, subprocess, tempfile
R = os.path.join(os.path.dirname(os.path.abspath(__file__)), '..')
groups = {}
for p in sorted(glob.glob(os.path.join(R, 'rocq', 'theories', 'Properties', '*.v'))):
    names = re.findall(r'^Theorem\s+(C\d+_\w+)', open(p).read(), re.M)
    tmp = os.path.join(tempfile.mkdtemp(), 'audit.v')
    open(tmp, 'w').write('From Verif Require Import Properties.%s.\n' % os.path.basename(p)[:-2]
                         + ''.join('Print Assumptions %s.\n' % n for n in names))
    o = subprocess.run(['coqtop', '-q', '-Q', 'theories', 'Verif', '-l', tmp, '-batch'],
                       cwd=os.path.join(R, 'rocq'), capture_output=True, text=True).stdout
    blocks = re.split(r'^(?=Closed under the global context|Axioms:)', o, flags=re.M)[1:]
    assert len(blocks) == len(names), (p, len(blocks), len(names))
    for n, b in zip(names, blocks):
        ax = tuple(sorted(re.findall(r'^([A-Za-z_][\w.]*)\s*(?:$|:)', b.replace('Axioms:', ''), re.M))) if b.startswith('Axioms') else ()
        groups.setdefault(ax, []).append(n)
out = ''
for ax in sorted(groups, key=lambda a: (len(a), a)):
    out += '\n**%s** (%d theorems): ' % (', '.join('`%s`' % a for a in ax) if ax else 'no axioms', len(groups[ax]))
    out += ', '.join('`%s`' % n for n in sorted(groups[ax])) + '\n'
d = os.path.join(R, 'DESIGN.md')
t = open(d).read()
t = re.sub(r'(<!-- axioms -->\n).*?(<!-- /axioms -->)', lambda m: m.group(1) + out + '\n' + m.group(2), t, flags=re.S)
open(d, 'w').write(t)
print({k: len(v) for k, v in groups.items()})
