#!/usr/bin/env python3
"""Collect mutation results (scratch copies outside /verif) into seeded/LOG.jsonl."""
import json,glob,sys
T={} # edit_id -> (list of theorems tightened, note)
try: exec(open('/verif/tools/tightened.py').read())
except FileNotFoundError: pass
seen={}
for f in sorted(glob.glob('/tmp/mut/*.jsonl')):
    for l in open(f):
        d=json.loads(l); seen[d['edit_id']]=d
out=[]
for k,d in seen.items():
    t,note=T.get(k,([],''))
    out.append({"definition":d['definition'],"edit":d['edit'],"claim":d['claim'],"properties":d['ids'],
      "theorems_failed":d['hit'],"first_failing":d['first'],"survived":d['survivors'],"verdict":d['verdict'],"theorems_tightened":t,"note":note})
open('/verif/seeded/LOG.jsonl','w').write(''.join(json.dumps(x)+'\n' for x in out))
print(len(out))
