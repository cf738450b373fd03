"""Regenerates DESIGN.md from tools/design_head.md, properties.jsonl, MANIFEST.json and the comments in P_*.v."""
import json,re,glob
base='/verif/'
com={};where={}
for f in sorted(glob.glob(base+'rocq/theories/P_*.v')):
    s=open(f).read()
    for m in re.finditer(r'^Theorem (C\d\d_\w+)',s,re.M):
        pre=s[:m.start()].rstrip(); c=''
        if pre.endswith('*)'):
            i=pre.rindex('(**'); c=pre[i+3:-2].strip()
            if '*)' in c: c=''
        com[m.group(1)]=re.sub(r'\s+',' ',c); where[m.group(1)]=f.split('/')[-1]
plan={}
for l in open(base+'tools/plan.md'):
    m=re.match(r'\* \*\*(C\d\d)\*\* (.*)',l)
    if m: plan[m.group(1)]=m.group(2)
man={c['property']:c for c in json.load(open(base+'MANIFEST.json'))['claims']}
out=[open(base+'tools/design_head.md').read().replace('EXTRA_ROWS\n',open(base+'tools/design_rows.md').read())]
for l in open(base+'properties.jsonl'):
    p=json.loads(l); i=p['id']; c=man.get(i)
    out.append('### %s %s\n\n%s\n\n'%(i,p['title'],p['statement']))
    if i in plan: out.append('Plan: '+plan[i].split(': ',1)[-1]+'\n\n')
    if not c: out.append('Not yet proved.\n\n'); continue
    out.append('Status: %s.%s\n\n'%(c['status'],' '+c['note'] if c['note'] else ''))
    for t in c['theorems']:
        out.append('* `%s` (%s)%s\n'%(t,where[t],': '+com[t] if len(com[t])>4 else ''))
    out.append('\n')
open(base+'DESIGN.md','w').write(''.join(out))
