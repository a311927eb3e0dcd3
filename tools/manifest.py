#!/usr/bin/env python3
"""Generate MANIFEST.json: collects every Theorem Cnn_* from rocq/theories, statuses and notes below."""
import json,re,glob,os
root=os.path.dirname(os.path.dirname(os.path.abspath(__file__)))
props=[json.loads(l) for l in open(root+'/properties.jsonl')]
thms={}
for f in sorted(glob.glob(root+'/rocq/theories/*.v')):
    for m in re.finditer(r'^\s*Theorem\s+(C\d\d\d?)(_\w+)',open(f).read(),re.M):
        thms.setdefault(m.group(1),[]).append(m.group(1)+m.group(2))
try: exec(open(root+'/tools/notes.py').read())
except FileNotFoundError: NOTES={}; STATUS={}
claims=[]
for p in props:
    i=p['id']; t=thms.get(i,[])
    if not t:
        if STATUS.get(i)=='not_applicable':
            claims.append({"property":i,"status":"not_applicable","theorems":[],"note":NOTES.get(i,'')})
        continue
    st=STATUS.get(i,'partial' if any(x.endswith('_partial') for x in t) else 'proved')
    claims.append({"property":i,"status":st,"theorems":t,"note":NOTES.get(i,'')})
json.dump({"claims":claims},open(root+'/MANIFEST.json','w'),indent=1)
done={c['property'] for c in claims}
print(len(claims),'claims; missing:',' '.join(p['id'] for p in props if p['id'] not in done))
