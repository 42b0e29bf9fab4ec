#!/usr/bin/env python3
"""usage: log_mut.py results.jsonl : append the results of a campaign of seeded bugs to seeded/LOG.jsonl"""
import json,sys
for l in open(sys.argv[1]):
    r=json.loads(l)
    d={"definition":f"{r['file']}: {r['definition']}","edit":f"{r['old']}  ==>  {r['new']}","claim_broken":r['claim'],
       "theorems_failed":r['fails'],"property_files_not_rebuilt":r['P_not_built'],"tightened":r.get('tightened',[]),
       "result":"caught" if r['rc']!=0 else r.get('survived','SURVIVED')}
    if r['rc']==124: d['result']='caught (the build never finishes: a proof script diverges)'
    open('/verif/seeded/LOG.jsonl','a').write(json.dumps(d)+'\n')
