#!/usr/bin/env python3
"""Print Assumptions of every theorem named in MANIFEST.json (needs a built rocq/); prints a summary."""
import json, os, re, subprocess, collections, tempfile
root=os.path.dirname(os.path.dirname(os.path.abspath(__file__)))
th=os.path.join(root,'rocq','theories')
where={}
for f in sorted(os.listdir(th)):
    if f.endswith('.v'):
        for m in re.finditer(r'^\s*(?:Theorem|Lemma|Example|Corollary)\s+(\w+)',open(os.path.join(th,f)).read(),re.M):
            where.setdefault(m.group(1),[]).append(f[:-2])
names=[]
for c in json.load(open(os.path.join(root,'MANIFEST.json')))['claims']:
    for t in c['theorems']:
        if t not in names: names.append(t)
src=''
mods=sorted({where[n][0] for n in names})
for m in mods: src+=f'From Verif Require {m}.\n'
for n in names:
    src+=f'Goal True. idtac "@@ {n}". exact I. Qed.\nPrint Assumptions {where[n][0]}.{n}.\n'
d=tempfile.mkdtemp()
open(d+'/ax.v','w').write(src)
out=subprocess.run(['coqc','-Q',th,'Verif',d+'/ax.v'],capture_output=True,text=True)
if out.returncode: print(out.stderr); raise SystemExit(1)
res=collections.OrderedDict(); cur=None
for l in out.stdout.splitlines():
    if l.startswith('@@ '): cur=l[3:]; res[cur]=[]
    elif 'Closed under' in l or l.startswith('Axioms:'): pass
    else:
        m=re.match(r'^(\S+)(\s*:.*)?$',l)
        if m and not l.startswith(' '): res[cur].append(m.group(1))
groups=collections.OrderedDict()
for n,a in res.items(): groups.setdefault(tuple(a),[]).append(n)
for a,ns in groups.items():
    print(('closed' if not a else ', '.join(a))+':'); print('   ',len(ns),', '.join(ns))
