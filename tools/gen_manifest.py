#!/usr/bin/env python3
"""Writes /verif/MANIFEST.json from the table below; checks that each theorem exists in rocq/theories and each property is listed."""
import json,re,glob,os
sys_path=os.path.dirname(os.path.abspath(__file__))
C={}
def c(pid,status,theorems,note=""): C[pid]=dict(property=pid,status=status,theorems=theorems,note=note)
exec(open(os.path.join(sys_path,"manifest_data.py")).read())
src="\n".join(open(f).read() for f in glob.glob("/verif/rocq/theories/*.v"))
names=set(re.findall(r"^Theorem\s+(\w+)",src,re.M))
props=[json.loads(l)["id"] for l in open("/verif/properties.jsonl")]
used=set()
for p in C.values():
    for t in p["theorems"]:
        used.add(t)
        if t not in names: print("missing theorem",t)
for n in sorted(names-used): print("theorem not in manifest:",n)
for p in props:
    if p not in C: print("no claim for",p)
json.dump({"claims":[C[p] for p in props if p in C]},open("/verif/MANIFEST.json","w"),indent=1)
