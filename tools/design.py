#!/usr/bin/env python3
import json,os,re,glob
root=os.path.dirname(os.path.dirname(os.path.abspath(__file__)))
props=[json.loads(l) for l in open(root+'/properties.jsonl')]
man={c['property']:c for c in json.load(open(root+'/MANIFEST.json'))['claims']}
meth=json.load(open(root+'/tools/methods.json'))
where={}
for f in sorted(glob.glob(root+'/rocq/theories/*/*.v')):
    for m in re.finditer(r'^\s*Theorem\s+(C\d\d\d?_\w+)',open(f).read(),re.M): where[m.group(1)]=f.split('theories/')[1]
out=open(root+'/tools/design_head.md').read()
extra=meth.get('_extra',[])
out=out.replace('@@EXTRA@@\n',''.join(f'| {a} | {b} |\n' for a,b in extra))
out+='## 6. Per property\n\n'
for p in props:
    c=man[p['id']]
    fs=sorted({where[t] for t in c['theorems']})
    comp=sorted({f.split('/')[0] for f in fs})
    out+=f"### {p['id']} — {p['title']} ({c['status']})\n\n{p['statement']}\n\n"
    m=meth.get(p['id']) or ' '.join(meth.get(x,'') for x in comp)
    out+=f"*Model and proof:* {m} ({', '.join('`'+f+'`' for f in fs)})\n\n"
    if c['note']: out+=f"*Scope:* {c['note']}\n\n"
    out+='*Theorems:* '+', '.join('`'+t+'`' for t in c['theorems'])+'\n\n'
open(root+'/DESIGN.md','w').write(out)
print(len(out))
