#!/usr/bin/env python3
"""claim.py ID STATUS "thm1 thm2" NOTE : add or replace a claim in MANIFEST.json"""
import json,sys,os
p=os.path.join(os.path.dirname(__file__),'..','MANIFEST.json')
m=json.load(open(p))
i,st,th,note=sys.argv[1:5]
c=[x for x in m['claims'] if x['property']!=i]
c.append({"property":i,"status":st,"theorems":th.split(),"note":note})
c.sort(key=lambda x:x['property'])
open(p,'w').write('{"claims": [\n'+',\n'.join(json.dumps(x) for x in c)+'\n]}\n')
