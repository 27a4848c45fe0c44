#!/usr/bin/env python3
"""Append mutate.py results to seeded/LOG.jsonl.  usage: log.py results.jsonl"""
import json, sys
with open('/verif/seeded/LOG.jsonl', 'a') as out:
    for l in open(sys.argv[1]):
        r = json.loads(l)
        if 'error' in r: continue
        out.write(json.dumps({'definition': r['file'] + ':' + r['def'], 'edit': r['edit'], 'claim': r['claim'],
          'failed': r.get('theorems_failed', [r.get('statement_error')]), 'failed_lemmas': r.get('failed_lemmas', []),
          'tightened': r.get('tightened', [])}) + '\n')
