import re
T=open("/repo/tests/test_caf.py").read().split("class cafTestFilter")[1].split("def test_filter_7")[0]
out=[]
q=None
for m in re.finditer(r'cafBlock.fromString\("(.*?)"\)|rules_by_id\(("[^)]*)\)',T):
    if m.group(1): q=m.group(1)
    else: out.append((q,re.findall(r'"(.*?)"',m.group(2))))
if __name__=="__main__":
    from gen import *
    from scratch import q as Q
