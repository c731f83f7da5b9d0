#!/usr/bin/env python3
"""Builds MANIFEST.json: the theorems of each property are found by their Cnn_ prefix in rocq/theories/Props_*.v;
status and note come from tools/status.json."""
import json,re,glob,os
root=os.path.dirname(os.path.dirname(os.path.abspath(__file__)))
th={}
for f in sorted(glob.glob(root+'/rocq/theories/Props_*.v')):
    for m in re.finditer(r'^Theorem\s+(C\d\d)(\w*)',open(f).read(),re.M):
        th.setdefault(m.group(1),[]).append(m.group(1)+m.group(2))
st=json.load(open(root+'/tools/status.json'))
claims=[]
for l in open(root+'/properties.jsonl'):
    i=json.loads(l)['id']
    if i in th or i in st:
        s=st.get(i,["partial",""])
        claims.append({"property":i,"status":s[0],"theorems":th.get(i,[]),"note":s[1]})
json.dump({"claims":claims},open(root+'/MANIFEST.json','w'),indent=1)
print(len(claims),sum(len(c["theorems"]) for c in claims), [i for i in th if i not in st])
