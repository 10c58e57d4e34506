#!/usr/bin/env python3
"""Rewrites the table between the markers of DESIGN.md from properties.jsonl and MANIFEST.json."""
import json,os
d=os.path.join(os.path.dirname(os.path.abspath(__file__)),'..')
P={json.loads(l)['id']:json.loads(l) for l in open(d+'/properties.jsonl')}
M={c['property']:c for c in json.load(open(d+'/MANIFEST.json'))['claims']}
W=json.load(open(d+'/tools/how.json'))
out=['| id | property | model and method | outcome |','|----|----------|------------------|---------|']
for i in sorted(P):
    c=M.get(i,{'status':'(planned)','note':''})
    out.append('| %s | %s | %s | %s. %s |'%(i,P[i]['title'],W.get(i,''),c['status'],c['note'].replace('|','/')))
s=open(d+'/DESIGN.md').read()
a,b='<!-- table -->','<!-- /table -->'
i,j=s.index(a)+len(a),s.index(b)
open(d+'/DESIGN.md','w').write(s[:i]+'\n'+'\n'.join(out)+'\n'+s[j:])
