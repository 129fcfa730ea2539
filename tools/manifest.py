#!/usr/bin/env python3
"""Regenerates MANIFEST.json from the theorem names in rocq/theories/Props_*.v."""
import json,re,glob,collections
th=collections.defaultdict(list)
for f in sorted(glob.glob('/verif/rocq/theories/Props_*.v')):
    for m in re.finditer(r'^Theorem (C(\d{2,3})_\w+)',open(f).read(),re.M):
        th['C'+m.group(2)].append(m.group(1))
exec(open('/verif/tools/status.py').read())   # PARTIAL, NA, NOTE
claims=[]
for l in open('/verif/properties.jsonl'):
    i=json.loads(l)['id']
    if i in NA: claims.append(dict(property=i,status='not_applicable',theorems=[],note=NA[i])); continue
    if not th[i]: print('no theorem yet for',i); continue
    claims.append(dict(property=i,status='partial' if i in PARTIAL else 'proved',theorems=th[i],note=PARTIAL.get(i,NOTE.get(i,''))))
json.dump(dict(claims=claims),open('/verif/MANIFEST.json','w'),indent=1)
