#!/usr/bin/env python3
"""Mutation runner: tools/mutate.py muts.json   (works on a scratch copy in /tmp/mut/work)
muts.json: list of {definition, file, old, new, edit, claim, tightened?}.  Appends to seeded/LOG.jsonl."""
import json,sys,subprocess,shutil,os,re,glob
W="/tmp/mut/work"
def lemma_at(path,line):
    name=None
    for i,l in enumerate(open(path),1):
        m=re.match(r"\s*(?:Local |Global )?(?:Lemma|Theorem|Corollary|Example|Definition|Fixpoint|Remark|Fact)\s+(\w+)",l)
        if m: name=m.group(1)
        if i>=line: break
    return name
for m in json.load(open(sys.argv[1])):
    shutil.rmtree(W,ignore_errors=True); os.makedirs("/tmp/mut",exist_ok=True)
    subprocess.run(["cp","-a","/verif/rocq",W],check=True)
    f=f"{W}/theories/{m['file']}"
    s=open(f).read()
    n=s.count(m["old"])
    if n<1: print("NOT FOUND",m["definition"],repr(m["old"])); continue
    s=s.replace(m["old"],m["new"],1) if not m.get("all") else s.replace(m["old"],m["new"])
    open(f,"w").write(s)
    subprocess.run("coq_makefile -f _CoqProject -o Makefile >/dev/null 2>&1",shell=True,cwd=W)
    r=subprocess.run("ulimit -v 9000000; timeout 900 make -k -j4 2>&1",shell=True,cwd=W,capture_output=True,text=True)
    out=r.stdout
    fails=[]
    for g in re.finditer(r'File "\./theories/(\w+)\.v", line (\d+).*?\n(Error.*)?',out):
        if "Error" in out[g.start():g.start()+2000]:
            fails.append((g.group(1),lemma_at(f"{W}/theories/{g.group(1)}.v",int(g.group(2)))))
    errs=[]
    for a in fails:
        if a not in errs: errs.append(a)
    blocked=[]
    for pf in sorted(glob.glob(f"{W}/theories/P_*.v")):
        vo=pf+"o"
        if not os.path.exists(vo) or os.path.getmtime(vo)<os.path.getmtime(f):
            # depends on mutated file?
            if not os.path.exists(vo): blocked+=re.findall(r"^(?:Theorem|Corollary)\s+(\w+)",open(pf).read(),re.M)
            else:
                q=subprocess.run(f"make -q {os.path.relpath(vo,W)}",shell=True,cwd=W,capture_output=True)
                if q.returncode!=0: blocked+=re.findall(r"^(?:Theorem|Corollary)\s+(\w+)",open(pf).read(),re.M)
    rec=dict(definition=m["file"]+":"+m["definition"],edit=m.get("edit",f"{m['old']}  ->  {m['new']}"),claim=m["claim"],
             failed=[f"{a}.{b}" for a,b in errs],property_theorems_not_rebuilt=blocked,tightened=m.get("tightened",[]))
    print(json.dumps(rec))
    if not errs: print("   *** SURVIVED")
    if not m.get("dry"):
        open("/verif/seeded/LOG.jsonl","a").write(json.dumps(rec)+"\n")
