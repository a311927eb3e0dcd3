#!/usr/bin/env python3
"""Print Assumptions of every theorem in MANIFEST.json -> ASSUMPTIONS.md (run after a build of rocq/)."""
import json,re,subprocess,glob,os,collections
root='/verif'
man=json.load(open(root+'/MANIFEST.json'))
where={}
for f in sorted(glob.glob(root+'/rocq/theories/*.v')):
    n=os.path.basename(f)[:-2]
    for m in re.finditer(r'^\s*Theorem\s+(C\d\d\d?_\w+)',open(f).read(),re.M): where[m.group(1)]=n
ths=[t for c in man['claims'] for t in c['theorems']]
mods=sorted({where[t] for t in ths})
src='\n'.join('Require Verif.%s.'%m for m in mods)+'\n'
for t in ths: src+='Goal True. idtac "@@ %s". exact I. Qed.\nPrint Assumptions Verif.%s.%s.\n'%(t,where[t],t)
open('/tmp/PA.v','w').write(src)
r=subprocess.run(['coqc','-R',root+'/rocq/theories','Verif','/tmp/PA.v'],capture_output=True,text=True)
if r.returncode: print(r.stderr[-2000:]); raise SystemExit(1)
cur=None; ax=collections.OrderedDict()
for l in r.stdout.split('\n'):
    if l.startswith('@@ '): cur=l[3:]; ax[cur]=set(); continue
    m=re.match(r'^([A-Za-z_][\w.]*)( :|$)',l)
    if m and cur and l.strip() not in('Axioms:','Closed under the global context'): ax[cur].add(m.group(1))
groups=collections.OrderedDict()
for t in ths: groups.setdefault(tuple(sorted(ax[t])),[]).append(t)
allax=sorted({a for s in ax.values() for a in s})
out='# Print Assumptions of every theorem in MANIFEST.json\n\nGenerated by tools/assumptions.py. All axioms are those of the Coq 8.16.1 standard library.\n\nAxioms that occur anywhere:\n\n'+'\n'.join('* `%s`'%a for a in allax)+'\n\n'
for g,ts in sorted(groups.items(),key=lambda x:len(x[0])):
    out+='## '+('Closed under the global context (no axioms)' if not g else 'Uses '+', '.join('`%s`'%a for a in g))+'\n\n'+', '.join('`%s`'%t for t in ts)+'\n\n'
open(root+'/ASSUMPTIONS.md','w').write(out)
print(len(ths),'theorems',len(groups),'groups',allax)
