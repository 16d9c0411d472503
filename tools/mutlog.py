# Append the raw results of a mutation run to seeded/LOG.jsonl.
import json,sys
skip=set(sys.argv[2:])
out=open('/verif/seeded/LOG.jsonl','a')
n=0
for l in open(sys.argv[1]):
    d=json.loads(l)
    if any(s in d['definition'] for s in skip): continue
    cl=d['claim']; ids=[w for w in cl.replace('/',' ').replace(',',' ').split() if w[0]=='C' and w[1:].isdigit()]
    tf=[t for t in d['theorems_failed'] if t.split('_')[0] in ids] or d['first_failing']
    out.write(json.dumps({"definition":d['definition'],"edit":d['edit'],"claim_broken":cl,"first_failing":d['first_failing'],"theorems_failed":tf,"theorems_tightened":d.get('tightened',[])})+"\n"); n+=1
print(n)
