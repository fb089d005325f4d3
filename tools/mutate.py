#!/usr/bin/env python3
"""Mutation harness.  usage: mutate.py FILE.v PROPSFILE(s,comma) <<< "OLD\n====\nNEW"
Copies rocq/ to /tmp/mut, applies the edit, rebuilds.  Each lemma whose proof breaks is
replaced by Admitted (in the scratch copy only) so that the build can go on; finally every property theorem
that depends on such a lemma is reported (via Print Assumptions)."""
import sys,os,re,subprocess,shutil
src='/verif/rocq'; dst=os.environ.get('MUT','/tmp/mut')
f,props=sys.argv[1],sys.argv[2].split(',')
old,new=sys.stdin.read().split('\n====\n'); new=new.rstrip('\n'); old=old.rstrip('\n')
subprocess.run(['rsync','-a','--delete',src+'/',dst+'/'],check=True) if shutil.which('rsync') else (shutil.rmtree(dst,ignore_errors=True), shutil.copytree(src,dst))
p=f'{dst}/theories/{f}'; s=open(p).read()
assert s.count(old)>=1,'pattern not found'
assert s.count(old)==1,'pattern not unique'
open(p,'w').write(s.replace(old,new))
order=[l.strip() for l in open(dst+'/_CoqProject') if l.strip().endswith('.v')]
# dependency closure: recompile files depending on f
deps={}
for v in order:
    t=open(f'{dst}/{v}').read()
    m=re.findall(r'From Verif Require (?:Import )?([^.]*)\.',t)
    deps[v]=set('theories/%s.v'%x for y in m for x in y.split())
dirty={'theories/'+f}
todo=[]
for v in order:
    if v in dirty or deps[v]&dirty:
        dirty.add(v); todo.append(v)
want=set('theories/'+x for x in props); need=set(want)
ch=True
while ch:
    ch=False
    for v in list(need):
        for d in deps.get(v,()):
            if d not in need: need.add(d); ch=True
todo=[v for v in todo if v in need]
broken=[]
def coqc(v,extra=[]):
    try:
        r=subprocess.run(['coqc','-q','-Q','theories','Verif']+extra+[v],cwd=dst,capture_output=True,text=True,timeout=int(os.environ.get('MUTTO','150')))
        return r.returncode,r.stdout+r.stderr
    except subprocess.TimeoutExpired as e:
        return 99,(e.stdout or b'').decode()
START=re.compile(r'^\s*(?:#\[[^\]]*\]\s*)?(?:Local\s+|Global\s+)?(Lemma|Theorem|Corollary|Remark|Fact|Example|Definition|Instance|Program\s+\w+|Fixpoint)\s+(\w+)',re.M)
for v in todo:
    for it in range(60):
        rc,out=coqc(v)
        if rc==0: break
        t=open(f'{dst}/{v}').read()
        if rc==99:
            rc2,o2=coqc(v,['-time']); ms=re.findall(r'Chars (\d+) - (\d+)',o2); pos=int(ms[-1][1])+2 if ms else 0
            # byte to char
            pos=len(t.encode()[:pos].decode(errors='ignore'))
        else:
            m=re.search(r'line (\d+), characters (\d+)-',out)
            if not m: print('??',out[-500:]); sys.exit(1)
            ln=int(m.group(1)); lines=t.split('\n'); pos=sum(len(x)+1 for x in lines[:ln-1])+int(m.group(2))
        if not [x for x in START.finditer(t) if x.start()<=pos]: print('NOSTART',v,out[-500:]); sys.exit(1)
        st=[x for x in START.finditer(t) if x.start()<=pos]
        x=st[-1]; name=x.group(2)
        pr=t.find('Proof',x.start()); q=re.compile(r'\b(Qed|Defined)\.').search(t,pr)
        if pr<0 or q is None or t[x.start():pr].count('\n')>60 or name in [b[1] for b in broken if b[0]==v]:
            print('CANNOT CONTINUE in',v,'at',name,':',out[-600:]); print('broken:',broken); sys.exit(1)
        err=out.strip().split('Error:')[-1].strip().replace('\n',' ')[:120] if rc!=99 else 'timeout'
        broken.append((v,name,err))
        t=t[:pr]+'Proof. Admitted. (* mutated *)'+t[q.end():]
        open(f'{dst}/{v}','w').write(t)
print('broken lemmas:')
for b in broken: print('  ',*b)
bn=set(b[1] for b in broken)
failed=[]; ok=[]
for pf in props:
    t=open(f'{dst}/theories/{pf}').read()
    thms=re.findall(r'^(?:Theorem)\s+(\w+)',t,re.M)
    mod=pf[:-2]
    q='/tmp/mutq_%d.v'%os.getpid()
    open(q,'w').write(f'From Verif Require Import {mod}.\n'+''.join(f'Goal True. idtac "@@{x}". Abort.\nPrint Assumptions {x}.\n' for x in thms))
    r=subprocess.run(['coqc','-q','-Q','theories','Verif',q],cwd=dst,capture_output=True,text=True)
    parts=re.split(r'@@(\w+)\n',r.stdout)
    for n,b in zip(parts[1::2],parts[2::2]):
        (failed if any(re.search(r'\b%s\b'%x,b) for x in bn) or n in bn else ok).append(n)
print('FAILED:',failed); print('OK:',ok)
