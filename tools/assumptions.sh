#!/bin/sh
# Print Assumptions of every theorem of MANIFEST.json (after a build in rocq/).
cd "$(dirname "$0")/../rocq" || exit 1
python3 - <<'P' > /tmp/assumptions.v
import json,re,glob
th=[t for c in json.load(open('../MANIFEST.json'))['claims'] for t in c['theorems']]
print("From Verif Require %s."%' '.join(f[9:-2] for f in sorted(glob.glob('theories/Properties_*.v'))))
where={}
for f in glob.glob('theories/Properties_*.v'):
    for n in re.findall(r'^ *(?:Theorem|Lemma|Corollary) (\w+)',open(f).read(),re.M): where[n]=f[9:-2]
for t in th: print("Print Assumptions Verif.%s.%s."%(where[t],t))
P
coqc -Q theories Verif /tmp/assumptions.v | sort | uniq -c
