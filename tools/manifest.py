#!/usr/bin/env python3
"""Writes MANIFEST.json; theorem names are collected from Properties_*.v by their Cnn_ prefix."""
import re,glob,json,sys
NOTES={}
STATUS={}
exec(open('/verif/tools/notes.py').read())
thms={}
for f in sorted(glob.glob('/verif/rocq/theories/*.v')):
    for m in re.finditer(r'^\s*(?:Theorem|Corollary)\s+(C(\d\d)_\w+)',open(f).read(),re.M):
        thms.setdefault('C'+m.group(2),[]).append(m.group(1))
claims=[]
for l in open('/verif/properties.jsonl'):
    p=json.loads(l)['id']
    ts=thms.get(p,[])
    st=STATUS.get(p) or ('proved' if ts else 'partial')
    if not ts: st='partial' if p not in STATUS else STATUS[p]
    claims.append({"property":p,"status":st,"theorems":ts,"note":NOTES.get(p,"" if ts else "not proved yet")})
json.dump({"claims":claims},open('/verif/MANIFEST.json','w'),indent=1)
print({c['property']:(c['status'],len(c['theorems'])) for c in claims})
