#!/usr/bin/env python3
"""Regenerates MANIFEST.json from the theorems of rocq/theories/*Props.v and
the notes in tools/notes.json ({id: {"status":..., "note":...}})."""
import glob, json, os, re
root = os.path.dirname(os.path.dirname(os.path.abspath(__file__)))
thms = {}
for f in sorted(glob.glob(root + '/rocq/theories/*Props.v')):
    mod = os.path.basename(f)[:-2]
    for m in re.finditer(r'^Theorem (C\d+_\w+)', open(f).read(), re.M):
        thms.setdefault(m.group(1)[:3], []).append(m.group(1))
notes = json.load(open(root + '/tools/notes.json'))
claims = []
for l in open(root + '/properties.jsonl'):
    i = json.loads(l)['id']
    if i not in notes:
        if i in thms: print('no note for', i)
        continue
    claims.append({'property': i, 'status': notes[i]['status'],
                   'theorems': thms.get(i, []), 'note': notes[i]['note']})
json.dump({'claims': claims}, open(root + '/MANIFEST.json', 'w'), indent=1)
print(len(claims), 'claims')
