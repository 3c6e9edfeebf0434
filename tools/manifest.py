# Writes MANIFEST.json from the theorem names in *Props.v and the statuses below.
import json,re,glob,os
root=os.path.dirname(os.path.dirname(os.path.abspath(__file__)))
ids=[json.loads(l)["id"] for l in open(root+"/properties.jsonl")]
NOTES={}
exec(open(root+"/tools/notes.py").read())
thms={}
for f in sorted(glob.glob(root+"/rocq/theories/*Props.v")):
    for n in re.findall(r"^Theorem\s+(\w+)",open(f).read(),re.M):
        thms.setdefault(n.split("_")[0],[]).append(n)
claims=[]
for i in ids:
    st,note=NOTES.get(i,("proved",""))
    t=thms.get(i,[])
    if not t: st,note="partial","Not yet modelled; no theorem yet."
    claims.append(dict(property=i,status=st,theorems=t,note=note))
json.dump(dict(claims=claims),open(root+"/MANIFEST.json","w"),indent=1)
print(sum(1 for c in claims if c["theorems"]),"of",len(claims),"with theorems;",sum(len(c["theorems"]) for c in claims),"theorems")
