#!/usr/bin/env python3
# Regenerates MANIFEST.json from the theorem names Cxx_* in rocq/theories/C_*.v and notes.json
import json,re,glob,os
os.chdir(os.path.dirname(os.path.abspath(__file__)))
notes=json.load(open('notes.json'))
th={}
for f in sorted(glob.glob('rocq/theories/C_*.v')):
    for m in re.finditer(r'^(?:Theorem|Corollary)\s+(C(\d{2,3})_\w+)',open(f).read(),re.M):
        th.setdefault('C'+m.group(2),[]).append(m.group(1))
claims=[]
for l in open('properties.jsonl'):
    i=json.loads(l)['id']
    t=th.get(i,[])
    st='proved' if t and not any(x.endswith('_partial') or x.endswith('_refuted') for x in t) else 'partial'
    n=notes.get(i,'')
    if not t: n=n or 'not yet proved'
    claims.append({'property':i,'status':st,'theorems':t,'note':n})
json.dump({'claims':claims},open('MANIFEST.json','w'),indent=1)
print(sum(c['status']=='proved' for c in claims),'proved',sum(c['status']=='partial' for c in claims),'partial',[c['property'] for c in claims if not c['theorems']])
