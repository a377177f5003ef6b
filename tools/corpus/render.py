import re,sys,json,ast
def lex(src):
    # returns tokens (kind,text); handles - whitespace control; jinja default: trailing single newline removed
    if src.endswith("\n"): src=src[:-1]
    toks=[];pos=0
    for m in re.finditer(r'\{%(-?)(.*?)(-?)%\}|\{\{(-?)(.*?)(-?)\}\}|\{#(-?)(.*?)(-?)#\}',src,re.S):
        toks.append(["t",src[pos:m.start()]]);pos=m.end()
        if m.group(2) is not None: k,b,l,r="s",m.group(2).strip(),m.group(1),m.group(3)
        elif m.group(5) is not None: k,b,l,r="e",m.group(5).strip(),m.group(4),m.group(6)
        else: k,b,l,r="c","",m.group(7),m.group(9)
        if l=='-': toks[-1][1]=toks[-1][1].rstrip()
        toks.append([k,b,r])
    toks.append(["t",src[pos:]])
    for i,t in enumerate(toks):
        if len(t)==3 and t[2]=='-' : toks[i+1][1]=toks[i+1][1].lstrip()
    return toks
class S:
    def __init__(s,n,p): s.name,s.protocol=n,p
def ev(e,ctx):
    e=e.replace("services|sort(attribute='name')","sorted(services,key=lambda x:x.name.lower())")
    e=re.sub(r"([\w.]+)\|lower",r"\1.lower()",e)
    return eval(e,dict(ctx))
def parse(toks,i,stop):
    out=[]
    while i<len(toks):
        t=toks[i]
        if t[0]=="t": out.append(("t",t[1]));i+=1
        elif t[0]=="c": i+=1
        elif t[0]=="e": out.append(("e",t[1]));i+=1
        else:
            w=t[1].split()
            if w[0] in stop: return out,i
            if w[0]=="block":
                b,i=parse(toks,i+1,("endblock",));out.append(("block",w[1],b));i+=1
            elif w[0]=="for":
                b,i=parse(toks,i+1,("endfor",));m=re.match(r"for (\w+) in (.*)",t[1]);out.append(("for",m.group(1),m.group(2),b));i+=1
            elif w[0]=="set":
                m=re.match(r"set (\w+)\s*=\s*(.*)",t[1],re.S);out.append(("set",m.group(1),m.group(2)));i+=1
            elif w[0]=="if":
                br=[];cond=t[1][3:]
                while True:
                    b,i=parse(toks,i+1,("elif","else","endif"));br.append((cond,b));w2=toks[i][1]
                    if w2=="endif": break
                    cond="True" if w2=="else" else w2[5:]
                out.append(("if",br));i+=1
            else: raise Exception(t)
    return out,i
def run(ns,ctx):
    o=""
    for n in ns:
        if n[0]=="t":o+=n[1]
        elif n[0]=="e":o+=str(ev(n[1],ctx))
        elif n[0]=="block":o+=run(n[2],dict(ctx))
        elif n[0]=="set":ctx[n[1]]=ev(n[2],ctx)
        elif n[0]=="for":
            for x in ev(n[2],ctx):o+=run(n[3],dict(ctx,**{n[1]:x}))
        elif n[0]=="if":
            for c,b in n[1]:
                if ev(c,ctx):o+=run(b,ctx);break
    return o
def blocks(ns,d):
    for n in ns:
        if n[0]=="block":d[n[1]]=n[2];blocks(n[2],d)
        elif n[0]=="for":blocks(n[3],d)
    return d
def load(name):
    ns,_=parse(lex(open("/repo/tests/acl/tpl/%s.jinja2"%name).read()),0,())
    return ns,blocks(ns,{})
