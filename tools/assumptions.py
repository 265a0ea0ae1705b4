#!/usr/bin/env python3
"""Prints, for every theorem of MANIFEST.json, what Print Assumptions lists (needs a built tree); writes ASSUMPTIONS.md."""
import json,os,re,subprocess,glob
here=os.path.dirname(os.path.dirname(os.path.abspath(__file__)))
man=json.load(open(here+'/MANIFEST.json'))
where={}
for f in glob.glob(here+'/rocq/theories/*.v'):
    for m in re.finditer(r'^(?:Theorem|Lemma|Corollary)\s+([\w\']+)',open(f).read(),re.M): where.setdefault(m.group(1),os.path.basename(f)[:-2])
ths=[(c['property'],t) for c in man['claims'] for t in c['theorems']]
mods=sorted({where[t] for _,t in ths})
src='From Verif Require '+' '.join(mods)+'.\n'
for _,t in ths: src+=f'Goal True. idtac "@@ {t}". Abort.\nPrint Assumptions {where[t]}.{t}.\n'
open('/tmp/Assum.v','w').write(src)
o=subprocess.run('coqc -Q theories Verif /tmp/Assum.v',shell=True,cwd=here+'/rocq',capture_output=True,text=True)
if o.returncode: print(o.stderr[-2000:])
parts=re.split(r'^@@ (\S+)\n',o.stdout,flags=re.M)
res={}
for t,b in zip(parts[1::2],parts[2::2]):
    res[t]=sorted(set(re.findall(r'^([A-Za-z_][\w.\']*)\s*(?=:|$)',b,re.M))-{'Axioms','Closed'})
groups={}
for p,t in ths: groups.setdefault(tuple(res[t]),[]).append((p,t,where[t]))
with open(here+'/ASSUMPTIONS.md','w') as f:
    f.write('# Print Assumptions of every claimed theorem\n\nGenerated by tools/assumptions.py.\n')
    for k in sorted(groups,key=len):
        f.write('\n## '+(', '.join('`%s`'%x for x in k) if k else 'Closed under the global context (no axiom)')+'\n\n')
        for p,t,w in groups[k]: f.write(f'* {p}: `{t}` ({w}.v)\n')
for k in groups: print(len(groups[k]),k)
