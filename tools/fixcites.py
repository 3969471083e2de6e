#!/usr/bin/env python3
"""Recompute the line ranges in citations of the form  file.py:a-b [name]  from /repo."""
import ast,re,sys,glob,os
REPO='/repo/dec/'
def ranges(fn):
    src=open(REPO+fn).read(); t=ast.parse(src); out={}
    def walk(node,pre):
        for c in ast.iter_child_nodes(node):
            if isinstance(c,(ast.FunctionDef,ast.ClassDef)):
                q=pre+c.name
                out.setdefault(q,(c.lineno,c.end_lineno))
                walk(c,q+'.')
            elif isinstance(c,ast.Assign) and len(c.targets)==1 and isinstance(c.targets[0],ast.Name):
                out.setdefault(pre+c.targets[0].id,(c.lineno,c.end_lineno)); walk(c,pre)
            else: walk(c,pre)
    walk(t,'')
    return out
cache={}
pat=re.compile(r'(\w+\.py):(\d+)(?:-(\d+))?(\s+)\[([\w.]+)\]')
for f in glob.glob('/verif/rocq/theories/**/*.v',recursive=True):
    s=open(f).read()
    def rep(m):
        fn=m.group(1)
        if fn not in cache:
            if not os.path.exists(REPO+fn): print('no file',f,m.group(0)); return m.group(0)
            cache[fn]=ranges(fn)
        r=cache[fn].get(m.group(5))
        if r is None:
            c=[k for k in cache[fn] if k.split('.')[-1]==m.group(5)]
            if len(c)==1: r=cache[fn][c[0]]
        if r is None: print('unknown',f,m.group(0)); return m.group(0)
        return '%s:%s%s[%s]'%(fn,str(r[0]) if r[0]==r[1] else '%d-%d'%r,m.group(4),m.group(5))
    s2=pat.sub(rep,s)
    if s2!=s: open(f,'w').write(s2); print('fixed',f)
