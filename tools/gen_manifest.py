#!/usr/bin/env python3
"""Write MANIFEST.json from the theorem names in rocq/theories/Props*.v.

A theorem named C07_... belongs to property C07.  A property is "partial" when
one of its theorems ends in _partial or when it is listed in PARTIAL below.
NOTES (tools/notes.json) holds one free-text note per property.
"""
import glob, json, os, re
ROOT = os.path.dirname(os.path.dirname(os.path.abspath(__file__)))
notes = json.load(open(os.path.join(ROOT, 'tools/notes.json')))
props = [json.loads(l)['id'] for l in open(os.path.join(ROOT, 'properties.jsonl'))]
thms = {}
for f in sorted(glob.glob(os.path.join(ROOT, 'rocq/theories/Props*.v'))):
    for m in re.finditer(r'^Theorem\s+((C\d\d)_\w+)', open(f).read(), re.M):
        thms.setdefault(m.group(2), []).append(m.group(1))
claims = []
for p in props:
    if p not in thms:
        continue
    n = notes.get(p, "")
    partial = any(t.endswith('_partial') for t in thms[p]) or n.startswith('PARTIAL')
    claims.append({"property": p, "status": "partial" if partial else "proved",
                   "theorems": thms[p], "note": n})
json.dump({"claims": claims}, open(os.path.join(ROOT, 'MANIFEST.json'), 'w'), indent=1)
print(len(claims), 'claims', sum(len(c['theorems']) for c in claims), 'theorems; missing:',
      [p for p in props if p not in thms])
