from render import *
import re,glob
src=open("/repo/lib/acltk/aclObjects.py").read()
tab=re.search(r'_servnames = """(.*?)"""',src,re.S).group(1)
svc=[]
for line in tab.split("\n"):
    line=line.strip()
    if not line: continue
    n,p,_,d=[x.strip() for x in line.split("|")]
    for q in p.split(","): svc.append(S(n.split(" ")[0],q))
ctx={"services":svc}
T=open("/repo/tests/test_acl.py").read()
def tests(cls):
    body=re.search(r"class %s\(.*?(?=\nclass |\Z)"%cls,T,re.S).group(0)
    return [(m.group(1),re.findall(r'"(\w+)"',m.group(2) or "")) for m in re.finditer(r'_test_block\("(\w+)"(, \[[^\]]*\])?',body)]
F=load("fwsm");I=load("ios");B=load("bad");C=load("caf")
def text(t,names): return "".join(run(t[1][n],dict(ctx)) for n in names[::-1])
out={"asa":[],"ios":[],"bad":[]}
for n,d in tests("fwsmTestBlock"):
    if n=="ignore": d=[x for x in F[1] if x.startswith("ignore")]
    if n in F[1]: out["asa"].append((n,text(F,[n]+d)))
    else: print("no block",n)
out["asa"].append(("whole",run(F[0],dict(ctx))))
for n,d in tests("iosTestBlock"): out["ios"].append((n,text(I,[n]+d)))
out["ios"].append(("whole",run(I[0],dict(ctx))))
for n in B[1]: out["bad"].append((n,text(B,[n])))
out["caf"]=[("whole",run(C[0],dict(ctx)))]
out["query"]=[(f.split("/")[-1][:-4],open(f).read()) for f in sorted(glob.glob("/repo/tests/caf/*.caf"))]
