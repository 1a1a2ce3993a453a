#!/usr/bin/env python3
# Regenerates /verif/MANIFEST.json; properties not in the table are omitted until proved.
import json, os, re
here = os.path.dirname(os.path.abspath(__file__))
T = {}
def c(p, status, theorems, note): T[p] = dict(property=p, status=status, theorems=theorems.split(), note=note)
exec(open(os.path.join(here, 'claims.py')).read())
ids = [json.loads(l)['id'] for l in open(os.path.join(here, '..', 'properties.jsonl'))]
# check names exist
src = ''
for f in sorted(os.listdir(os.path.join(here, '..', 'rocq', 'theories'))):
    if f.endswith('.v'): src += open(os.path.join(here, '..', 'rocq', 'theories', f)).read()
for p in T.values():
    assert p['property'] in ids, p
    for t in p['theorems']:
        assert re.search(r'(Theorem|Lemma|Corollary)\s+' + re.escape(t) + r'\b', src), t
json.dump({'claims': [T[i] for i in ids if i in T]}, open(os.path.join(here, '..', 'MANIFEST.json'), 'w'), indent=1)
print(len(T), 'of', len(ids))
