#!/usr/bin/env python3
"""mklog.py OUT.jsonl...: seeded/LOG.jsonl, one line per attempt (out files of mutate.py, in order)."""
import sys, json
w = open('/verif/seeded/LOG.jsonl', 'w')
ex = '/verif/seeded/extra.jsonl'
for f in sys.argv[1:]:
    for l in open(f):
        d = json.loads(l)
        if 'error' in d: continue
        w.write(json.dumps({'id': d['id'], 'definition': d['definition'], 'edit': d['edit'], 'claim_broken': d['claim'],
            'first_proofs_failing': d.get('first_proofs_failing', [])[:6], 'theorems_failed': d['theorems_failed'],
            'theorems_tightened': d.get('theorems_tightened', [])}) + '\n')
try:
    for l in open(ex): w.write(l)
except FileNotFoundError: pass
