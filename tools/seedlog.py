"""Append harness output to seeded/LOG.jsonl: seedlog.py out.jsonl [tightened.json]"""
import json,sys
tight=json.load(open(sys.argv[2])) if len(sys.argv)>2 else {}
with open('/verif/seeded/LOG.jsonl','a') as g:
    for l in open(sys.argv[1]):
        d=json.loads(l)
        if 'error' in d: continue
        g.write(json.dumps(dict(definition=d['definition'],edit=d['edit'],claim=d['claim'],
          theorems_failed=d['failed'],outcome='survived' if d['rc']==0 else 'killed',
          theorems_tightened=tight.get(d['definition'],[]) if d['rc']==0 else []))+'\n')
