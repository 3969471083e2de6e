#!/usr/bin/env python3
"""Write MANIFEST.json from the theorems in rocq/theories/Props and tools/notes.json."""
import re,glob,json,os,collections
root='/verif/'
notes=json.load(open(root+'tools/notes.json')) if os.path.exists(root+'tools/notes.json') else {}
ids=[json.loads(l)['id'] for l in open(root+'properties.jsonl') if l.strip()]
th=collections.OrderedDict((i,[]) for i in ids); mods=[]
for f in sorted(glob.glob(root+'rocq/theories/Props/*.v')):
    b=os.path.basename(f)[:-2]
    names=re.findall(r'^(?:Theorem|Corollary) (C\d\d+)(_\w+)',open(f).read(),re.M)
    if names: mods.append(b)
    for i,n in names: th[i].append((b,i+n))
claims=[]
for i in ids:
    n=notes.get(i,{})
    if not th[i] and 'status' not in n: continue
    names=[x for _,x in th[i]]
    st=n.get('status') or ('partial' if any(x.endswith('_partial') for x in names) else 'proved')
    claims.append({"property":i,"status":st,"theorems":names,"note":n.get('note','')})
json.dump({"claims":claims},open(root+'MANIFEST.json','w'),indent=1)
print(len(claims),'claims',sum(len(c['theorems']) for c in claims),'theorems; missing',[i for i in ids if i not in [c['property'] for c in claims]])
