#!/usr/bin/env python3
"""Regenerate rocq/_CoqProject, theories/Audit/*.v (one Print Assumptions per Properties file, over
the tuple of all its theorems; tools/axioms.py asks theorem by theorem) and MANIFEST.json from the theorem names (prefix C<nn>_) in theories/Properties/*.v and the notes
in tools/notes.json."""
import re, os, json, glob
R = os.path.join(os.path.dirname(os.path.abspath(__file__)), '..')
T = os.path.join(R, 'rocq', 'theories')
os.makedirs(os.path.join(T, 'Audit'), exist_ok=True)
thms = {}
for p in sorted(glob.glob(os.path.join(T, 'Properties', '*.v'))):
    name = os.path.basename(p)[:-2]
    src = open(p).read()
    ns = re.findall(r'^Theorem\s+(C\d+_\w+)', src, re.M)
    for n in ns:
        thms.setdefault(n.split('_')[0], []).append(n)
    out = '(** Axioms used by the property theorems of Properties/%s.v (generated by tools/gen.py) *)\n' % name
    out += 'From Verif Require Import Properties.%s.\n\n' % name
    out += 'Definition audited :=\n  (' + ',\n   '.join('@' + n for n in ns) + ').\nPrint Assumptions audited.\n'
    q = os.path.join(T, 'Audit', name + 'A.v')
    if not os.path.exists(q) or open(q).read() != out:
        open(q, 'w').write(out)
for q in glob.glob(os.path.join(T, 'Audit', '*A.v')):
    if not os.path.exists(os.path.join(T, 'Properties', os.path.basename(q)[:-3] + '.v')):
        os.remove(q)
files = []
for d in ['Model', 'Spec', 'Proof', 'Properties', 'Audit']:
    files += ['theories/%s/%s' % (d, os.path.basename(p)) for p in sorted(glob.glob(os.path.join(T, d, '*.v')))]
cp = '-Q theories Verif\n\n' + '\n'.join(files) + '\n'
q = os.path.join(R, 'rocq', '_CoqProject')
if open(q).read() != cp:
    open(q, 'w').write(cp)
notes = json.load(open(os.path.join(R, 'tools', 'notes.json')))
props = [json.loads(l)['id'] for l in open(os.path.join(R, 'properties.jsonl')) if l.strip()]
claims = []
for c in props:
    if c in thms:
        st, note = notes.get(c, ['proved', ''])
        if any(n.endswith('_partial') for n in thms[c]) and st == 'proved':
            print('WARNING', c, 'has a _partial theorem but is marked proved')
        if c not in notes:
            print('no note for', c)
        claims.append({'property': c, 'status': st, 'theorems': thms[c], 'note': note})
for c in thms:
    if c not in props:
        print('WARNING theorem for unknown property', c)
print('without theorems:', [c for c in props if c not in thms])
json.dump({'claims': claims}, open(os.path.join(R, 'MANIFEST.json'), 'w'), indent=1)
open(os.path.join(R, 'MANIFEST.json'), 'a').write('\n')
print(sum(len(v) for v in thms.values()), 'theorems,', len(claims), 'claims')
