#!/usr/bin/env python3
"""Print Assumptions of every theorem of the manifest -> ASSUMPTIONS.md. Needs the built rocq/ directory."""
import json, re, subprocess, os, glob
root = os.path.dirname(os.path.dirname(os.path.abspath(__file__)))
th = os.path.join(root, 'rocq', 'theories')
names = []
order = [l.strip()[9:-2] for l in open(os.path.join(root, 'rocq', '_CoqProject')) if l.startswith('theories/Props')]
for f in order:
    s = open(os.path.join(th, f + '.v')).read()
    names += [(f, t) for t in re.findall(r'^\s*(?:Theorem|Lemma|Corollary|Example) +(C\d\d_\w+)', s, re.M)]
os.makedirs('/tmp/asm', exist_ok=True)
q = '/tmp/asm/Q.v'
with open(q, 'w') as o:
    for m in order: o.write('From Verif Require %s.\n' % m)
    for m, t in names: o.write('Goal True. idtac "@@ %s". exact I. Qed.\nPrint Assumptions %s.%s.\n' % (t, m, t))
r = subprocess.run(['coqc', '-Q', th, 'Verif', 'Q.v'], cwd='/tmp/asm', capture_output=True, text=True)
assert r.returncode == 0, r.stderr[-2000:]
groups = {}; mod = dict((t, m) for m, t in names)
for blk in r.stdout.split('@@ ')[1:]:
    t = blk.split()[0]; body = blk[len(t):]
    ax = tuple(sorted(set(re.findall(r"^([A-Za-z][\w.']*) *(?::|$)", body, re.M)) - {'Axioms', 'Closed'}))
    groups.setdefault(ax, []).append(t)
with open(os.path.join(root, 'ASSUMPTIONS.md'), 'w') as o:
    o.write('# Print Assumptions of every theorem\n\nGenerated by tools/gen_assumptions.py from the built files. No axiom is of this development: all are of the Coq standard library.\n')
    for ax, ts in sorted(groups.items(), key=lambda g: len(g[0])):
        o.write('\n## ' + ('Closed under the global context' if not ax else ', '.join('`%s`' % a for a in ax)) + '\n\n')
        for t in ts: o.write('* `%s` (%s.v)\n' % (t, mod[t]))
print({k: len(v) for k, v in groups.items()}, len(names))
