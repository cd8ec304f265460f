#!/usr/bin/env python3
"""Regenerates MANIFEST.json from the theorem names in rocq/theories/T_*.v and tools/notes.json."""
import glob, json, re
props=[json.loads(l)['id'] for l in open('/verif/properties.jsonl')]
notes=json.load(open('/verif/tools/notes.json'))
th={}
for f in sorted(glob.glob('/verif/rocq/theories/T_*.v')):
    for n in re.findall(r'^\s*Theorem\s+(\w+)',open(f).read(),re.M):
        m=re.match(r'(C\d+)_',n)
        if m: th.setdefault(m.group(1),[]).append(n)
cl=[]
for p in props:
    t=th.get(p,[])
    if not t and p not in notes: continue
    st='proved'
    if any(x.endswith('_refuted') or x.endswith('_partial') for x in t): st='partial'
    n=notes.get(p,{})
    if isinstance(n,str): n={'note':n}
    cl.append(dict(property=p,status=n.get('status',st),theorems=t,note=n.get('note','')))
json.dump({'claims':cl},open('/verif/MANIFEST.json','w'),indent=1)
print(len(cl),'claims',sum(len(c['theorems']) for c in cl),'theorems; missing:',[p for p in props if p not in [c['property'] for c in cl]])
