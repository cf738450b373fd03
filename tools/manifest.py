"""Regenerates MANIFEST.json: theorems named Cnn_* in rocq/theories/P_*.v, status from tools/notes.json."""
import json,re,glob
base='/verif/'
props=[json.loads(l) for l in open(base+'properties.jsonl')]
notes=json.load(open(base+'tools/notes.json'))
thms={}
for f in sorted(glob.glob(base+'rocq/theories/P_*.v')):
    for m in re.finditer(r'^Theorem (C(\d\d)_\w+)',open(f).read(),re.M):
        thms.setdefault('C'+m.group(2),[]).append(m.group(1))
claims=[]
for p in props:
    i=p['id']; t=thms.get(i,[]); n=notes.get(i,{})
    st=n.get('status') or ('proved' if t and not any(x.endswith(('_partial','_refuted')) for x in t) else 'partial')
    if not t and not n.get('status'): continue
    claims.append(dict(property=i,status=st,theorems=t,note=n.get('note','')))
json.dump({'claims':claims},open(base+'MANIFEST.json','w'),indent=1)
print(len(claims),{s:sum(c['status']==s for c in claims) for s in ('proved','partial','not_applicable')})
unknown=set(thms)-{p['id'] for p in props}
if unknown: print('UNKNOWN',unknown)
