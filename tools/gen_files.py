#!/usr/bin/env python3
"""Rewrites the end of DESIGN.md: which source files of /repo/code are cited by the model (with the line ranges),
and which are not."""
import os,re,glob,collections
root='/repo/code'
src={}
for d,_,fs in os.walk(root):
    for f in fs:
        if re.search(r'\.(cpp|h|c|cc)$',f):
            src.setdefault(f,[]).append(os.path.relpath(os.path.join(d,f),root))
cited=collections.defaultdict(set); used=collections.defaultdict(set)
for v in sorted(glob.glob('/verif/rocq/theories/*.v')):
    t=open(v).read()
    for com in re.findall(r'\(\*.*?\*\)',t,re.S):
        com=re.sub(r'\s+',' ',com)
        for m in re.finditer(r'([A-Za-z0-9_\-/]+\.(?:cpp|h))((?::| lines | )[0-9][0-9\-, ]*)?',com):
            f=os.path.basename(m.group(1))
            if f not in src: continue
            used[f].add(os.path.basename(v)[:-2])
            if m.group(2):
                for r in re.findall(r'\d+(?:-\d+)?',m.group(2)): cited[f].add(r)
def key(r): return int(r.split('-')[0])
out=['## Source files','','Generated by `tools/gen_files.py` from the comments of the model.','','### Cited by the model','','| file under `code/` | lines | Coq files |','|---|---|---|']
for f in sorted(used,key=lambda f:src[f][0]):
    vs=sorted(used[f]); vs=[x for x in vs if not re.search(r'Proofs|^P_',x)] or vs
    out.append('| %s | %s | %s |'%(', '.join(src[f]),', '.join(sorted(cited[f],key=key)) or 'see the comments',', '.join(vs)))
out+=['','### Not modelled','','No definition of the model stands for anything in these files (headers that only declare what a modelled file defines are included here).','']
non=sorted(p for f in src if f not in used for p in src[f])
by=collections.defaultdict(list)
for p in non: by[os.path.dirname(p)].append(os.path.basename(p))
for d in sorted(by): out.append('* `%s/`: %s'%(d,', '.join(by[d])))
D='/verif/DESIGN.md'; t=open(D).read()
i=t.find('## Source files')
if i>=0: t=t[:i]
open(D,'w').write(t.rstrip()+'\n\n'+'\n'.join(out)+'\n')
