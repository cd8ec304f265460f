#!/usr/bin/env python3
"""Adds a missing `Print Assumptions` line after every property theorem of rocq/theories/T_*.v."""
import glob, re
for f in sorted(glob.glob('/verif/rocq/theories/T_*.v')):
    s=open(f).read()
    names=[n for n in re.findall(r'^Theorem\s+(\w+)',s,re.M) if f'Print Assumptions {n}.' not in s]
    for n in names:
        i=re.search(r'^Theorem\s+%s\b'%n,s,re.M).start()
        m=re.compile(r'\bQed\.').search(s,i)
        s=s[:m.end()]+f'\nPrint Assumptions {n}.'+s[m.end():]
    if names: open(f,'w').write(s); print(f,len(names))
    # theorems inside a section: after the section, where the hypotheses are discharged
    names=[n for n in re.findall(r'^\s+Theorem\s+(\w+)',s,re.M) if f'Print Assumptions {n}.' not in s]
    if names:
        open(f,'w').write(s.rstrip('\n')+'\n'+''.join(f'Print Assumptions {n}.\n' for n in names)); print(f,len(names))
