"""Regenerates /verif/MANIFEST.json from the theorem names in rocq/theories/P_*.v and the notes below."""
import json,re,glob,os
root=os.path.dirname(os.path.dirname(os.path.abspath(__file__)))
NOTES=json.load(open(os.path.join(root,"tools","notes.json")))
props=[json.loads(l) for l in open(os.path.join(root,"properties.jsonl"))]
th={}
for f in sorted(glob.glob(os.path.join(root,"rocq/theories/P_*.v"))):
    for m in re.finditer(r"^(?:Theorem|Corollary)\s+(C\d+)_(\w+)",open(f).read(),re.M):
        th.setdefault(m.group(1),[]).append(m.group(1)+"_"+m.group(2))
claims=[]
for p in props:
    i=p["id"]; t=th.get(i,[]); n=NOTES.get(i,{})
    st=n.get("status")
    if st is None:
        st="partial" if (not t or any(x.endswith("_partial") for x in t)) else "proved"
    claims.append(dict(property=i,status=st,theorems=t,note=n.get("note","" if t else "not modelled yet")))
json.dump(dict(claims=claims),open(os.path.join(root,"MANIFEST.json"),"w"),indent=1,ensure_ascii=False)
from collections import Counter
print(Counter(c["status"] for c in claims), [c["property"] for c in claims if not c["theorems"]])
