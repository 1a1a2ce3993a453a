#!/usr/bin/env python3
"""usage: logmut.py mutants.json results.txt: append one line per mutant to seeded/LOG.jsonl."""
import json, os, sys
ROOT = os.path.dirname(os.path.dirname(os.path.abspath(__file__)))
mus = {m['id']: m for m in json.load(open(sys.argv[1]))}
with open(os.path.join(ROOT, 'seeded', 'LOG.jsonl'), 'a') as f:
    for l in open(sys.argv[2]):
        if not l.startswith('{'): continue
        r = json.loads(l); m = mus[r['id']]
        if 'error' in r: print(r['id'], r['error']); continue
        f.write(json.dumps({'definition': m['file'] + ': ' + m['definition'], 'edit': m['edit'],
            'old': m['old'], 'new': m['new'], 'breaks': m['breaks'], 'first_broken_lemmas': r['broken_lemmas'],
            'failed': r['failed'], 'tightened': m.get('tightened', []), 'note': m.get('note', '')}) + '\n')
        print(r['id'], m['breaks'], '|', len(r['failed']), [t for t in r['still_prove'] if any(t.startswith(c.strip(' ,;:.')) for c in m['breaks'].split() if c[:1] == 'C')])
