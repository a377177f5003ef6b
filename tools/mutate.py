#!/usr/bin/env python3
"""Seeded-bug runner: applies each mutant of a list to a scratch copy of the model,
rebuilds, and appends one JSON line per mutant to /verif/seeded/LOG.jsonl.
Usage: mutate.py MUTANTS.json   (entries: file, definition, old, new, edit, claim)"""
import json,os,re,subprocess,sys,shutil
SRC=os.environ.get("MUT_SRC","/verif/rocq"); W=os.environ.get("MUT_WORK","/tmp/mut/rocq")
def sync():
    os.makedirs("/tmp/mut",exist_ok=True)
    subprocess.run(["rsync","-a","--delete",SRC+"/",W+"/"],check=True) if shutil.which("rsync") else (shutil.rmtree(W,ignore_errors=True),subprocess.run(["cp","-a",SRC,W],check=True))
def enclosing(path,line):
    name=None
    for i,l in enumerate(open(path),1):
        m=re.match(r"\s*(?:Local |Global )?(Theorem|Lemma|Example|Corollary|Definition|Fixpoint|Instance|Remark|Fact)\s+([\w']+)",l)
        if m: 
            if i<=line: name=m.group(2)
    return name
done=set()
log="/verif/seeded/LOG.jsonl"
for m in json.load(open(sys.argv[1])):
    sync()
    p=f"{W}/theories/{m['file']}"
    s=open(p).read()
    if s.count(m["old"])<1: print("NOT FOUND",m["definition"],m["old"]); continue
    n=m.get("nth",0)
    if n:
        i=-1
        for _ in range(n): i=s.index(m["old"],i+1)
        s=s[:i]+m["new"]+s[i+len(m["old"]):]
    else: s=s.replace(m["old"],m["new"],1)
    open(p,"w").write(s)
    r=subprocess.run("coq_makefile -f _CoqProject -o Makefile >/dev/null; ulimit -v 5000000; timeout 900 nice make "+os.environ.get("MUT_K","-k")+" -j"+os.environ.get("MUT_J","2")+" 2>&1",shell=True,cwd=W,capture_output=True,text=True)
    out=r.stdout
    fails=[]
    for mm in re.finditer(r'File "\./(theories/[^"]+)", line (\d+)[^\n]*\n(Error|[^\n]*\nError)',out):
        f,l=mm.group(1),int(mm.group(2))
        fails.append(f"{f[9:]}:{enclosing(W+'/'+f,l)}")
    blocked=[]
    for d,_,fs in os.walk(W+"/theories/Props"):
        for f in sorted(fs):
            if f.endswith(".v"):
                vo=os.path.join(d,f)+"o"
                if not os.path.exists(vo) or os.path.getmtime(vo)<os.path.getmtime(p): blocked.append(f[:-2])
    e=dict(definition=m["definition"],edit=m["edit"],claim_broken=m["claim"],theorems_failed=fails,props_files_not_rebuilt=blocked,theorems_tightened=m.get("tightened",[]))
    if not fails: e["note"]=m.get("note","SURVIVED")
    print(("KILLED " if fails else "SURVIVED ")+m["definition"]+": "+m["edit"]+" -> "+", ".join(fails)+" | "+",".join(blocked),flush=True)
    open(log,"a").write(json.dumps(e)+"\n")
