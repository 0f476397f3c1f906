#!/usr/bin/env python3
"""Appends the missing Print Assumptions commands to the Props*.v files given."""
import re,sys
for f in sys.argv[1:]:
    s=open(f).read()
    have=set(re.findall(r"Print Assumptions (\w+)\.",s))
    add=[n for n in re.findall(r"^Theorem (C\d\d_\w+)",s,re.M) if n not in have]
    if add:
        s=s.rstrip()+"\n\n"+"".join("Print Assumptions %s.\n"%n for n in add)
        open(f,'w').write(s)
