#!/usr/bin/env python3
"""Regenerates MANIFEST.json from the theorem names in rocq/theories/*Props.v.

Every theorem whose name starts with a property id is listed under it. The
status is taken from STATUS below (default: proved)."""
import glob, json, os, re
ROOT = os.path.dirname(os.path.dirname(os.path.abspath(__file__)))
STATUS = json.load(open(os.path.join(ROOT, 'tools', 'status.json')))
thms = {}
for f in sorted(glob.glob(os.path.join(ROOT, 'rocq/theories/*Props.v'))):
    for m in re.finditer(r'^Theorem (C\d\d\w*)', open(f).read(), re.M):
        thms.setdefault(m.group(1)[:3], []).append(m.group(1))
claims = []
for line in open(os.path.join(ROOT, 'properties.jsonl')):
    p = json.loads(line)['id']
    if p not in thms and p not in STATUS:
        continue
    st, note = STATUS.get(p, ['proved', ''])
    claims.append({"property": p, "status": st, "theorems": thms.get(p, []), "note": note})
json.dump({"claims": claims}, open(os.path.join(ROOT, 'MANIFEST.json'), 'w'), indent=1)
print(len(claims), 'claims')
