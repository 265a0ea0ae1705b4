#!/usr/bin/env python3
"""mutlog.py OUT.jsonl [NOTES.json]: append mutate.py results to seeded/LOG.jsonl (skips ids already there)."""
import json,sys,os
L='/verif/seeded/LOG.jsonl'
have=set()
if os.path.exists(L):
    for l in open(L):
        if l.strip(): have.add(json.loads(l)['id'])
notes=json.load(open(sys.argv[2])) if len(sys.argv)>2 else {}
with open(L,'a') as f:
    for l in open(sys.argv[1]):
        r=json.loads(l)
        if r['id'] in have: continue
        n=notes.get(r['id'],{})
        if n.get('skip'): continue
        f.write(json.dumps({'id':r['id'],'file':r['file'],'definition':r['definition'],'edit':r['edit'],
          'replaced':r['old'],'by':r['new'],'claim_broken':r['claim'],'proofs_broken':r['broken_proofs'],
          'theorems_failed':r['failed'],'theorems_not_rebuilt':r['unbuilt'],'surviving_theorems_of_claim':r['surviving_claim_theorems'],
          'theorems_tightened':n.get('tightened',[]),'note':n.get('note',r['note'])})+'\n')
