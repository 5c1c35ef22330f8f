#!/usr/bin/env python3
# Regenerates MANIFEST.json.  Property theorems are found in rocq/theories/Properties*.v by their
# Cxx_ prefix; status and note are kept here.
import json,re,glob
STATUS={}
def s(p,st,note): STATUS[p]=(st,note)
exec(open('/verif/tools/status.py').read())
th={}
for f in sorted(glob.glob('/verif/rocq/theories/Properties*.v')):
    for m in re.finditer(r'^\s*Theorem (C\d\d)_(\w+)',open(f).read(),re.M):
        th.setdefault(m.group(1),[]).append(m.group(1)+'_'+m.group(2))
props=[json.loads(l)['id'] for l in open('/verif/properties.jsonl')]
claims=[]
for p in props:
    if p in th:
        st,note=STATUS.get(p,('partial','')); claims.append(dict(property=p,status=st,theorems=th[p],note=note))
    elif p in STATUS and STATUS[p][0]=='not_applicable':
        claims.append(dict(property=p,status='not_applicable',theorems=[],note=STATUS[p][1]))
json.dump(dict(claims=claims),open('/verif/MANIFEST.json','w'),indent=1)
print(len(claims),[p for p in props if p not in [c['property'] for c in claims]])
