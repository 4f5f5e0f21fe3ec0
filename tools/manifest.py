#!/usr/bin/env python3
"""Regenerates MANIFEST.json from the theorem names Cxx_* in rocq/theories/Props_*.v and tools/notes.json."""
import re, json, glob, os
root = os.path.dirname(os.path.dirname(os.path.abspath(__file__)))
th = {}
for f in sorted(glob.glob(root + '/rocq/theories/Props_*.v')):
    for m in re.finditer(r'^(?:Theorem|Corollary)\s+(C\d\d_\w+)', open(f).read(), re.M):
        th.setdefault(m.group(1)[:3], []).append(m.group(1))
notes = json.load(open(root + '/tools/notes.json'))
claims = []
for l in open(root + '/properties.jsonl'):
    p = json.loads(l)['id']
    n = notes.get(p, {})
    ts = th.get(p, [])
    if not ts:
        st = n.get('status', 'partial')
        claims.append({"property": p, "status": st, "theorems": [], "note": n.get('note', 'Not proved yet.')})
        continue
    st = n.get('status') or ('partial' if any(t.endswith('_partial') for t in ts) else 'proved')
    claims.append({"property": p, "status": st, "theorems": ts, "note": n.get('note', '')})
json.dump({"claims": claims}, open(root + '/MANIFEST.json', 'w'), indent=1)
for c in claims:
    print(c['property'], c['status'], len(c['theorems']))
