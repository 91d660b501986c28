import re,sys
s=open('/verif/tools/props.py').read()
def rw(cid,title=None,stmt=None,quant=None):
    global s
    m=re.search(r'p\("%s","((?:[^"\\]|\\.)*)","((?:[^"\\]|\\.)*)",\n  "((?:[^"\\]|\\.)*)"'%cid,s)
    assert m,cid
    t=title or m.group(1); st=stmt or m.group(2); q=quant or m.group(3)
    s=s[:m.start()]+'p("%s","%s","%s",\n  "%s"'%(cid,t,st,q)+s[m.end():]
