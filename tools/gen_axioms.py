#!/usr/bin/env python3
"""Runs Print Assumptions on every property theorem (needs a finished build in rocq/) and rewrites the
table between the AXIOMS markers of DESIGN.md."""
import re,os,subprocess,collections,tempfile
here=os.path.dirname(os.path.dirname(os.path.abspath(__file__)))
T=here+'/rocq/theories/'
ths=[]
for f in sorted(os.listdir(T)):
    if f.endswith('.v') and 'Props' in f:
        for m in re.finditer(r'^Theorem (C\d\d\w*)',open(T+f).read(),re.M): ths.append((f[:-2],m.group(1)))
d0=tempfile.mkdtemp(); v=d0+'/ax.v'
with open(v,'w') as o:
    for f in sorted(set(f for f,_ in ths)): o.write(f'From Verif Require {f}.\n')
    for f,t in ths: o.write(f'Goal True. idtac "@@ {f} {t}". Abort.\nPrint Assumptions Verif.{f}.{t}.\n')
r=subprocess.run(['coqc','-R','theories','Verif',v],cwd=here+'/rocq',capture_output=True,text=True)
if r.returncode: raise SystemExit(r.stderr)
cur=None;d={}
for l in r.stdout.split('\n'):
    if l.startswith('@@ '): cur=tuple(l.split()[1:]); d[cur]=[]
    elif cur:
        m=re.match(r"^([A-Za-z_][\w.']*)\s*(:|$)",l)
        if m and m.group(1) not in('Axioms','Closed','Section'): d[cur].append(m.group(1))
assert len(d)==len(ths)
c=collections.defaultdict(list)
for k,a in d.items(): c[tuple(sorted(a))].append(k)
out=[]
n0=c.pop((),[])
cnt=collections.Counter(f for f,_ in n0)
out.append(f'* **Closed under the global context** ({len(n0)} theorems: every theorem not listed below): '+', '.join(f'{f} ({n})' for f,n in sorted(cnt.items()))+'.')
for a,k in sorted(c.items()):
    out.append('* '+', '.join('`'+x+'`' for x in a)+f' ({len(k)}): '+', '.join(f'`{f}.{t}`' for f,t in k)+'.')
s=open(here+'/DESIGN.md').read()
b,e='<!-- AXIOMS BEGIN -->\n','<!-- AXIOMS END -->'
i,j=s.index(b)+len(b),s.index(e)
open(here+'/DESIGN.md','w').write(s[:i]+'\n'.join(out)+'\n'+s[j:])
print(len(ths),'theorems;',len(n0),'closed;',sorted({x for a in c for x in a}))
