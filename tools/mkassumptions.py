#!/usr/bin/env python3
# Rewrites section 5 of DESIGN.md: what Print Assumptions reports for each theorem of the
# manifest. Run after the build.
import json, os, re, subprocess, tempfile
here = os.path.dirname(os.path.abspath(__file__))
root = os.path.join(here, '..')
theories = os.path.join(root, 'rocq', 'theories')
where = {}
for f in sorted(os.listdir(theories)):
    if f.endswith('.v'):
        for m in re.finditer(r'^\s*(?:Theorem|Lemma|Corollary)\s+([A-Za-z_0-9\']+)', open(os.path.join(theories, f)).read(), re.M):
            where.setdefault(m.group(1), f[:-2])
claims = json.load(open(os.path.join(root, 'MANIFEST.json')))['claims']
names = []
for c in claims:
    for t in c['theorems']:
        if t not in names: names.append(t)
d = tempfile.mkdtemp()
p = os.path.join(d, 'A.v')
with open(p, 'w') as o:
    for m in sorted({where[t] for t in names}): o.write('Require Verif.%s.\n' % m)
    for t in names: o.write('Print Assumptions Verif.%s.%s.\n' % (where[t], t))
out = subprocess.run(['coqc', '-Q', theories, 'Verif', p], capture_output=True, text=True)
assert out.returncode == 0, out.stderr
blocks = re.split(r'^(?=Axioms:|Closed under)', out.stdout, flags=re.M)[1:]
assert len(blocks) == len(names), (len(blocks), len(names))
def axioms(b): return sorted({m.split('.')[-1] for m in re.findall(r'^([A-Za-z_][A-Za-z_0-9.\']*)\s*(?::|$)', b, re.M) if m != 'Axioms'})
rows, sets = [], {}
for t, b in zip(names, blocks):
    a = tuple(axioms(b))
    k = sets.setdefault(a, 'ABCDEFGH'[len(sets)])
    rows.append('| `%s` | %s | %s |' % (t, where[t], k))
text = '## 5. What Print Assumptions reports\n\n'
for a, k in sets.items(): text += '* %s: %s\n' % (k, ', '.join('`%s`' % x for x in a) if a else 'closed under the global context')
text += '\nGenerated by `tools/mkassumptions.py` from the theorems in MANIFEST.json.\n\n| theorem | file | assumptions |\n|---|---|---|\n' + '\n'.join(rows) + '\n'
f = os.path.join(root, 'DESIGN.md')
s = open(f).read()
i = s.find('## 5.')
s = (s[:i] if i >= 0 else s.rstrip('\n') + '\n\n') + text
open(f, 'w').write(s)
print(len(names), 'theorems', {k: a for a, k in sets.items()})
