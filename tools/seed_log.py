"""Append the results of a seeding run to seeded/LOG.jsonl."""
import json
import sys

with open('/verif/seeded/LOG.jsonl', 'a') as out:
    for path in sys.argv[1:]:
        for line in open(path):
            r = json.loads(line)
            out.write(json.dumps({
                'definition': f"{r['file']}: {r['definition']}",
                'edit': r['edit'],
                'claim': r['breaks'],
                'theorems_failed': r['theorems_failed'],
                'first_failing': r['first_broken'],
                'theorems_tightened': r.get('tightened', []),
                **({'note': r['status']} if r['status'].startswith('proof of lemma') else {}),
            }) + '\n')
