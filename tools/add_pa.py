#!/usr/bin/env python3
"""insert a missing 'Print Assumptions T.' after the proof of every property theorem in Props*.v"""
import re,glob,os
for f in sorted(glob.glob(os.path.join(os.path.dirname(__file__),'../rocq/theories/Props*.v'))):
    s=open(f).read(); o=s
    for t in re.findall(r'^Theorem (C\d\d\d?_\w+)',s,re.M):
        if re.search(r'^Print Assumptions %s\.'%t,s,re.M): continue
        i=re.search(r'^Theorem %s\b'%t,s,re.M).start()
        j=s.index('Qed.',i)+4
        s=s[:j]+'\nPrint Assumptions %s.'%t+s[j:]
    if s!=o: open(f,'w').write(s); print(os.path.basename(f))
