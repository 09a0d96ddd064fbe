#!/usr/bin/env python3
"""Regenerates MANIFEST.json and _CoqProject: collects Theorem names C??_* from rocq/theories/Props*.v."""
import re,glob,json,os
root=os.path.dirname(os.path.dirname(os.path.abspath(__file__)))
thms={}
for f in sorted(glob.glob(root+'/rocq/theories/Props*.v')):
    for m in re.finditer(r'^(?:Theorem|Corollary) (C\d\d+)_(\w+)',open(f).read(),re.M):
        thms.setdefault(m.group(1),[]).append(m.group(1)+'_'+m.group(2))
notes=json.load(open(root+'/tools/notes.json'))
claims=[]
for line in open(root+'/properties.jsonl'):
    pid=json.loads(line)['id']
    n=notes.get(pid,{})
    ts=thms.get(pid,[])
    if not ts and n.get('status')!='not_applicable': continue
    st=n.get('status') or ('partial' if any(t.endswith('_partial') for t in ts) else 'proved')
    claims.append({"property":pid,"status":st,"theorems":ts,"note":n.get('note','')})
json.dump({"claims":claims},open(root+'/MANIFEST.json','w'),indent=1)
print(len(claims),'claims;',sum(c['status']=='proved' for c in claims),'proved')
