#!/usr/bin/env python3
"""Runs Print Assumptions for every Theorem Cnn_* of Props*.v (compiled) and writes AXIOMS.md."""
import re,glob,subprocess,os,collections,tempfile
root=os.path.dirname(os.path.dirname(os.path.abspath(__file__)))
mods=[];names=[]
for f in sorted(glob.glob(root+'/rocq/theories/Props*.v')):
    m=os.path.basename(f)[:-2]; mods.append(m)
    for n in re.findall(r"^Theorem (C\d\d_\w+)",open(f).read(),re.M): names.append((m,n))
src="".join("From Verif Require %s.\n"%m for m in mods)
for m,n in names:
    src+='Goal True. idtac "@@ %s". exact I. Qed.\nPrint Assumptions Verif.%s.%s.\n'%(n,m,n)
d=tempfile.mkdtemp()
open(d+'/t.v','w').write(src)
out=subprocess.run(['coqc','-Q',root+'/rocq/theories','Verif',d+'/t.v'],capture_output=True,text=True)
assert out.returncode==0,out.stderr
res={}
for blk in out.stdout.split('@@ ')[1:]:
    name,rest=blk.split('\n',1)
    ax=re.findall(r"^([A-Za-z_][\w.']*)\s*(?::|$)",rest,re.M)
    res[name.strip()]=tuple(sorted(a for a in ax if a not in('Axioms','Closed')))
g=collections.defaultdict(list)
for m,n in names: g[res[n]].append(n)
txt="# What Print Assumptions lists for each theorem\n\nGenerated by tools/axioms.py from the compiled files. %d theorems.\n"%len(names)
for k in sorted(g,key=lambda k:(len(k),k)):
    txt+="\n## "+("Closed under the global context" if not k else ", ".join("`%s`"%a for a in k))+"\n\n"
    txt+="".join("* %s\n"%n for n in sorted(g[k]))
open(root+'/AXIOMS.md','w').write(txt)
for k in sorted(g,key=len): print(len(g[k]),k)
