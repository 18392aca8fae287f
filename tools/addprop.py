import json
def add(rows):
    ids={json.loads(l)['id'] for l in open('/verif/properties.jsonl')}
    with open('/verif/properties.jsonl','a') as f:
        for r in rows:
            if r['id'] not in ids: f.write(json.dumps(r)+'\n')
def P(id,title,statement,quantifier,why,anchors):
    return dict(id=id,title=title,statement=statement,quantifier=quantifier,why_tests_cant=why,anchors=anchors)
def note(d):
    n=json.load(open('/verif/tools/notes.json'))
    for k,v in d.items():
        n[k]=v if isinstance(v,dict) else {'note':v}
    json.dump(n,open('/verif/tools/notes.json','w'),indent=1)
