"""Regenerate the 'Assumptions per theorem' section of DESIGN.md from MANIFEST.json (needs a finished build in rocq/)."""
import json, re, subprocess, os
root = os.path.dirname(os.path.dirname(os.path.abspath(__file__)))
th = os.path.join(root, 'rocq', 'theories')
where = {}
for f in sorted(os.listdir(th)):
    if f.endswith('.v'):
        for m in re.finditer(r'^(?:Theorem|Lemma|Corollary)\s+(\w+)', open(os.path.join(th, f)).read(), re.M):
            where.setdefault(m.group(1), f[:-2])
claims = json.load(open(os.path.join(root, 'MANIFEST.json')))['claims']
names = [(c['property'], t) for c in claims for t in c['theorems']]
mods = sorted({where[t] for _, t in names})
src = '\n'.join('From Verif Require %s.' % m for m in mods) + '\n'
src += '\n'.join('Goal True. idtac "@@%s". Abort.\nPrint Assumptions %s.%s.' % (t, where[t], t) for _, t in names) + '\n'
open('/tmp/assum.v', 'w').write(src)
out = subprocess.run(['coqc', '-Q', th, 'Verif', '/tmp/assum.v'], capture_output=True, text=True)
assert out.returncode == 0, out.stderr
groups = {}
for chunk in out.stdout.split('@@')[1:]:
    name, rest = chunk.split('\n', 1)
    ax = tuple(sorted(set(re.findall(r'^([\w.]+)\s*(?::|$)', rest, re.M)) - {'Axioms'}))
    if 'Closed under' in rest: ax = ()
    groups.setdefault(ax, []).append(name.strip())
txt = '## Assumptions per theorem (output of Print Assumptions)\n\nGenerated by tools/gen_assumptions.py from a finished build.\n'
for ax in sorted(groups, key=len):
    txt += '\n' + ('Closed under the global context (no axioms):' if not ax else 'Standard-library axioms ' + ', '.join('`%s`' % a for a in ax) + ':') + '\n\n'
    txt += ', '.join(groups[ax]) + '.\n'
d = os.path.join(root, 'DESIGN.md')
s = open(d).read()
i = s.find('## Assumptions per theorem')
s = (s if i < 0 else s[:i]).rstrip() + '\n\n' + txt
open(d, 'w').write(s)
print({k: len(v) for k, v in groups.items()})
