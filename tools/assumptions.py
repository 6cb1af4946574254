"""Print, as a Markdown table, what Print Assumptions lists for every theorem of rocq/theories/Prop*.v.

usage: python3 tools/assumptions.py   (after a build in rocq/)
"""
import os, re, subprocess, tempfile
ROOT = os.path.join(os.path.dirname(os.path.dirname(os.path.abspath(__file__))), 'rocq')
q, groups = '', {}
for f in sorted(os.listdir(ROOT + '/theories')):
    if f.startswith('Prop') and f.endswith('.v'):
        m = f[:-2]
        q += 'From Verif Require %s.\n' % m
        for t in re.findall(r'^Theorem (C\d\d_\w+)', open(ROOT + '/theories/' + f).read(), re.M):
            q += 'Goal True. idtac "@@ %s". Abort.\nPrint Assumptions %s.%s.\n' % (t, m, t)
with tempfile.TemporaryDirectory() as d:
    # Require lines first
    lines = q.split('\n')
    open(d + '/Q.v', 'w').write('\n'.join(sorted((l for l in lines), key=lambda l: not l.startswith('From'))))
    out = subprocess.run(['coqc', '-Q', ROOT + '/theories', 'Verif', d + '/Q.v'], capture_output=True, text=True).stdout
parts = re.split(r'@@ (\w+)\n', out)
for t, a in zip(parts[1::2], parts[2::2]):
    ax = () if 'Closed under the global context' in a else tuple(sorted(set(re.findall(r'^([\w.\']+)(?=\s*:|$)', a, re.M)) - {'Axioms'}))
    groups.setdefault(ax, []).append(t)
print('| axioms listed by `Print Assumptions` | theorems |\n|---|---|')
for ax in sorted(groups, key=len):
    print('| %s | %s |' % (', '.join('`%s`' % x for x in ax) or 'none (closed under the global context)', ', '.join(sorted(groups[ax]))))
