#!/usr/bin/env python3
"""MANIFEST.json from the table below; theorem names are checked against rocq/theories/*Props.v."""
import json,re,glob,os
here=os.path.dirname(os.path.dirname(os.path.abspath(__file__)))
names={}
for f in glob.glob(here+"/rocq/theories/*Props*.v"):
    for m in re.finditer(r"^\s*Theorem (\w+)",open(f).read(),re.M): names.setdefault(m.group(1).split("_")[0],[]).append(m.group(1))
notes={}
exec(open(here+"/tools/manifest_notes.py").read())
claims=[]
for l in open(here+"/properties.jsonl"):
    pid=json.loads(l)["id"]
    th=sorted(names.pop(pid,[]))
    st,note=notes.get(pid,("partial","not yet modelled"))
    if not th and st=="proved": raise SystemExit("no theorem for "+pid)
    if not th: st="partial"
    claims.append(dict(property=pid,status=st,theorems=th,note=note))
if names: print("theorems without property:",names)
json.dump({"claims":claims},open(here+"/MANIFEST.json","w"),indent=1)
print(len(claims),"claims;",sum(c["status"]=="proved" for c in claims),"proved;",sum(len(c["theorems"]) for c in claims),"theorems; missing:",[c["property"] for c in claims if not c["theorems"]])
