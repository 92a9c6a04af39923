#!/usr/bin/env python3
"""Build MANIFEST.json: theorem names come from rocq/theories/P_*.v (prefix Cxx_), statuses/notes from NOTES."""
import json, os, re, glob
root = os.path.join(os.path.dirname(os.path.abspath(__file__)), '..')
NOTES = {}
exec(open(os.path.join(root, 'tools', 'notes.py')).read())
thms = {}
for f in sorted(glob.glob(os.path.join(root, 'rocq/theories/P_*.v'))):
    for m in re.finditer(r'^Theorem\s+(C\d+_\w*)', open(f).read(), re.M):
        thms.setdefault(m.group(1).split('_')[0], []).append(m.group(1))
claims = []
for line in open(os.path.join(root, 'properties.jsonl')):
    p = json.loads(line)
    st, note = NOTES.get(p['id'], ('proved', ''))
    ts = thms.get(p['id'], [])
    if not ts:
        if p['id'] not in NOTES: continue
    claims.append(dict(property=p['id'], status=st, theorems=ts, note=note))
json.dump({'claims': claims}, open(os.path.join(root, 'MANIFEST.json'), 'w'), indent=1)
print(len(claims), 'claims;', sum(len(c['theorems']) for c in claims), 'theorems')
