#!/usr/bin/env python3
"""log_mutants.py MUTANTS.json RESULTS.jsonl : append results to seeded/LOG.jsonl
(one line per mutant and attempt; a mutant logged before is skipped)."""
import sys, json, os, re
LOG = '/verif/seeded/LOG.jsonl'
m = {x['id']: x for x in json.load(open(sys.argv[1]))}
done = set()
if os.path.exists(LOG):
    for l in open(LOG): 
        d = json.loads(l); done.add((d['id'], d.get('attempt', 1)))
with open(LOG, 'a') as f:
    seen = {}
    for l in open(sys.argv[2]):
        r = json.loads(l); i = r['id']
        if 'error' in r: continue
        seen[i] = seen.get(i, 0) + 1
        att = seen[i] + m[i].get('attempt0', 0)
        if (i, att) in done: continue
        x = m[i]
        thms = [t for t in r['theorems'] if not re.search(r'_ex(_|$)|_ex\w*$', t)]
        f.write(json.dumps(dict(id=i, attempt=att, definition=x['file'] + ': ' + x['definition'], edit=x['edit'] or (x['old'] + '  =>  ' + x['new']), claim=x['claim'],
            theorems_failed=thms, examples_failed=[t for t in r['theorems'] if t not in thms], lemmas_failed=r['broken'],
            theorems_tightened=x.get('tightened', []) if att == 1 else [])) + '\n')
