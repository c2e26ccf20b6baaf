#!/usr/bin/env python3
"""results.jsonl of the mutation harness -> lines of seeded/LOG.jsonl (stdout).
usage: gen_log.py results.jsonl [tightened.json]   tightened.json: {mutation id: [theorem, ...]}"""
import sys, json, re
pre={'ht':'C06','hs':'C07','cfc':'C11','fr':'C12','nv':'C13','pv':'C14','cc':'C15','cp':'C15','dc':'C16','qn':'C17','fh':'C18','sw':'C20','kc':'C20','ph':'C21','fm':'C22','frt':'C22','mp':'C23','fd':'C23','fy':'C24','jp':'C25','lm':'C48'}
T=json.load(open(sys.argv[2])) if len(sys.argv)>2 else {}
for l in open(sys.argv[1]):
    r=json.loads(l)
    if r.get('error'): continue
    cl=r['claim']
    p=r['definition'].split('_')[0]
    if not r['id'].startswith('b') and p in pre and '_' in r['definition']: cl=re.sub(r'^C\d\d',pre[p],cl)
    ed=r.get('edits') or [[r['old'],r['new']]]
    th=[t.rstrip('?') for t in r['theorems_failed']]
    print(json.dumps({"definition":r['file']+'.'+r['definition'],"edit":'; '.join('%s  =>  %s'%(a,b) for a,b in ed),"claim":cl,
      "theorems_failed":th,"theorems_tightened":T.get(r['id'],[])}))
