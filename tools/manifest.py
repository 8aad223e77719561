#!/usr/bin/env python3
"""Generate MANIFEST.json from the theorem names in rocq/theories/Props_*.v (prefix Cnn_)."""
import json,re,glob,os
root=os.path.dirname(os.path.dirname(os.path.abspath(__file__)))
props=[json.loads(l) for l in open(root+'/properties.jsonl')]
ths={}
for f in sorted(glob.glob(root+'/rocq/theories/Props_*.v')):
    for m in re.finditer(r'^(?:Theorem|Corollary) (C\d+)_(\w+)',open(f).read(),re.M):
        ths.setdefault(m.group(1),[]).append(m.group(1)+'_'+m.group(2))
notes=json.load(open(root+'/tools/notes.json')) if os.path.exists(root+'/tools/notes.json') else {}
def default_note(t):
    ref=[x for x in t if x.endswith('_refuted')]
    return ('The behaviour one would expect (or that is documented) does not hold: refuted by '+', '.join(ref)+'. The statement of this property describes what the code does instead, and that is what the other theorems prove.') if ref else ''
claims=[]
for p in props:
    i=p['id']; t=ths.get(i,[])
    n=notes.get(i,{})
    if not t:
        claims.append({"property":i,"status":"partial" if n.get('status') is None else n['status'],"theorems":[],"note":n.get('note','not yet proved')}); continue
    st=n.get('status') or ('partial' if any(x.endswith('_partial') for x in t) and not n.get('full') else 'proved')
    claims.append({"property":i,"status":st,"theorems":t,"note":n.get('note') or default_note(t)})
json.dump({"claims":claims},open(root+'/MANIFEST.json','w'),indent=1)
print(sum(c['status']=='proved' for c in claims),'proved',sum(c['status']=='partial' for c in claims),'partial',len(claims))
for i in ths:
    if i not in {p['id'] for p in props}: print('unknown',i)
