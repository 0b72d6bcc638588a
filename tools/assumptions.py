#!/usr/bin/env python3
"""Print Assumptions of every theorem of the manifest -> ASSUMPTIONS.md (needs the built tree)."""
import re,subprocess,collections,os
T='/verif/rocq/theories'
thms=[]
for line in open('/verif/tools/files.txt'):
    f=line.strip()
    if not f: continue
    mod=os.path.basename(f)[:-2]
    for n in re.findall(r'^ *(?:Theorem|Example)\s+(C\d\d_\w+)',open(f'{T}/{mod}.v').read(),re.M): thms.append((mod,n))
groups=collections.OrderedDict()
mods=list(collections.OrderedDict.fromkeys(m for m,_ in thms))
for mod in mods:
    names=[n for m,n in thms if m==mod]
    src=f'From Verif Require {mod}.\n'+''.join(f'Eval cbv in (fun MARK_{n} : nat => MARK_{n}).\nPrint Assumptions Verif.{mod}.{n}.\n' for n in names)
    open('/tmp/pa.v','w').write(src)
    out=subprocess.run(['coqc','-Q',T,'Verif','/tmp/pa.v'],capture_output=True,text=True).stdout
    parts=re.split(r'=\s*fun\s+MARK_(\w+)\s*:\s*nat\s*=>\s*MARK_\w+\s*:\s*nat\s*->\s*nat',out)
    assert len(parts)==2*len(names)+1,(mod,len(parts),len(names),out[:500])
    for n,body in zip(parts[1::2],parts[2::2]):
        ax=tuple(sorted(set(re.findall(r'^([A-Za-z_][\w.]*)\s*(?=:|$)',body,re.M))-{'Axioms'})) if 'Closed under' not in body else ()
        groups.setdefault(ax,[]).append(f'{n} ({mod})')
with open('/verif/ASSUMPTIONS.md','w') as f:
    f.write('# Print Assumptions, theorem by theorem\n\nGenerated by tools/assumptions.py.\n')
    for ax,ns in groups.items():
        f.write('\n## '+('Closed under the global context' if not ax else ', '.join(ax))+f' ({len(ns)} theorems)\n\n'+', '.join(ns)+'\n')
print({(' '.join(k) or 'closed'):len(v) for k,v in groups.items()})
