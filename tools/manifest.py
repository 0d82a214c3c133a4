#!/usr/bin/env python3
# regenerate MANIFEST.json from theorem names cNN_* in Props*.v and notes.json
import re,glob,json
thms={}
for f in sorted(glob.glob('/verif/rocq/theories/Props*.v')):
    s=open(f).read()
    s=re.sub(r'\(\*.*?\*\)','',s,flags=re.S)
    for m in re.finditer(r'^\s*Theorem\s+((c\d\d)\w*)',s,flags=re.M):
        thms.setdefault(m.group(2).upper(),[]).append(m.group(1))
notes=json.load(open('/verif/tools/notes.json'))
claims=[]
for l in open('/verif/properties.jsonl'):
    i=json.loads(l)['id']
    t=thms.get(i,[])
    st,note=notes.get(i,[None,''])
    if not t: continue
    if st is None:
        st='partial' if any(x.endswith('_partial') for x in t) else 'proved'
    claims.append({"property":i,"status":st,"theorems":t,"note":note})
json.dump({"claims":claims},open('/verif/MANIFEST.json','w'),indent=1)
print(len(claims),'claims',sum(len(c['theorems']) for c in claims),'theorems', [i for i in thms if i not in [c['property'] for c in claims]])
print('missing',[json.loads(l)['id'] for l in open('/verif/properties.jsonl') if json.loads(l)['id'] not in thms])
