#!/usr/bin/env python3
"""Regenerate MANIFEST.json: collects theorems named Cnn_* from rocq/theories/P_*.v; status/notes below."""
import re,glob,json,os
root=os.path.dirname(os.path.dirname(os.path.abspath(__file__)))
thms={}
for f in sorted(glob.glob(root+'/rocq/theories/P_*.v')):
    for m in re.finditer(r'^(?:Theorem|Lemma|Corollary)\s+(C\d\d\w*)',open(f).read(),re.M):
        thms.setdefault(m.group(1)[:3],[]).append(m.group(1))
NOTES=json.load(open(root+'/tools/notes.json'))
claims=[]
for l in open(root+'/properties.jsonl'):
    if not l.strip(): continue
    i=json.loads(l)['id']
    n=NOTES.get(i,{})
    t=thms.get(i,[])
    st=n.get('status') or ('proved' if t else None)
    if st is None: continue
    claims.append({"property":i,"status":st,"theorems":t,"note":n.get('note','')})
json.dump({"claims":claims},open(root+'/MANIFEST.json','w'),indent=1)
print(len(claims),'claims;',sum(c['status']=='proved' for c in claims),'proved;',sum(len(c['theorems']) for c in claims),'theorems')
