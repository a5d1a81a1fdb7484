#!/usr/bin/env python3
"""/tmp/mut/raw.jsonl (written by mutate.py) -> /verif/seeded/LOG.jsonl.
   Attempts that changed what a section variable depends on ("stuck") are left out: they were redone."""
import json,os
TIGHT={}   # mutant id -> theorems tightened after it
p='/tmp/mut/tight.json'
if os.path.exists(p): TIGHT=json.load(open(p))
out=[];seen=set()
for l in open('/tmp/mut/raw.jsonl'):
    r=json.loads(l)
    if r['status']!='ok': continue
    seen.add(r['id'])
    out=[o for o in out if o['id']!=r['id']]
    out.append({"id":r['id'],"definition":r['definition'],"edit":r['edit'],"claim":r['claim'],
      "theorems_failed":r['theorems_failed'],"lemmas_failed":r['lemmas_failed'][:12],
      "theorems_tightened":TIGHT.get(r['id'],[])})
open('/verif/seeded/LOG.jsonl','w').write(''.join(json.dumps(o)+'\n' for o in out))
print(len(out))
