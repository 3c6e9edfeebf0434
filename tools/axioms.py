# Writes AXIOMS.md: what Print Assumptions lists for every theorem of MANIFEST.json.
# Run after a build, in any directory.
import json,re,subprocess,os,glob,tempfile
root=os.path.dirname(os.path.dirname(os.path.abspath(__file__)))
src=""
where={}
for f in sorted(glob.glob(root+"/rocq/theories/*Props.v")):
    m=os.path.basename(f)[:-2]
    for n in re.findall(r"^Theorem\s+(\w+)",open(f).read(),re.M): where[n]=m
mods=sorted(set(where.values()))
src="".join("From Verif Require %s.\n"%m for m in mods)
src="From Coq Require Import String.\n"+src
names=sorted(where)
for n in names: src+='Eval compute in "@@ %s"%%string.\nPrint Assumptions %s.%s.\n'%(n,where[n],n)
d=tempfile.mkdtemp(); open(d+"/A.v","w").write(src)
out=subprocess.run(["coqc","-Q",root+"/rocq/theories","Verif",d+"/A.v"],capture_output=True,text=True)
if out.returncode: raise SystemExit(out.stderr)
res={}
for part in out.stdout.split('= "@@ ')[1:]:
    n=part[:part.index('"')]
    ax=re.findall(r"^([A-Za-z_][\w.']*)\s*(?:$|:)",part.split("\n",2)[2] if part.count("\n")>1 else "",re.M)
    res[n]=tuple(sorted(set(a for a in ax if a not in("Axioms","Closed"))))
groups={}
for n,a in res.items(): groups.setdefault(a,[]).append(n)
with open(root+"/AXIOMS.md","w") as o:
    o.write("# Axioms per theorem\n\nGenerated by tools/axioms.py from `Print Assumptions`. All axioms are those of Coq's standard library.\n")
    for a,ns in sorted(groups.items(),key=lambda x:len(x[0])):
        o.write("\n## %s\n\n"%("Closed under the global context (no axioms)" if not a else ", ".join("`%s`"%x for x in a)))
        for n in sorted(ns): o.write("* %s\n"%n)
print({k:len(v) for k,v in groups.items()})
