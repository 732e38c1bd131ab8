#!/usr/bin/env python3
"""Writes the "What is modelled" section of DESIGN.md from the citations in rocq/theories/*Model.v."""
import re,glob,os,collections
R="/repo/include/delfem2"
files=sorted(os.path.relpath(f,R) for e in ("*.h","*.cpp") for f in glob.glob(R+"/**/"+e,recursive=True))
base={}
for f in files: base.setdefault(os.path.basename(f),f)
cit=collections.defaultdict(list)
for m in sorted(glob.glob("/verif/rocq/theories/*Model.v")):
    src=open(m).read()
    for com in re.findall(r"\(\*\*(.*?)\*\)",src,re.S):
        cur=None
        for t in re.finditer(r"([\w/]+\.(?:cpp|h)):((?:\d+(?:-\d+)?)(?:\s*(?:,|and)\s*\d+(?:-\d+)?)*)",com):
            b=os.path.basename(t.group(1))
            for r in re.findall(r"\d+(?:-\d+)?",t.group(2)): cit[base.get(b,b)].append((int(r.split('-')[0]),r,os.path.basename(m)[:-2]))
out=["## What is modelled","","Generated by tools/gen_scope.py from the citations in the model files. Lines of a listed file that are not cited are not modelled.",""]
for f in sorted(cit):
    rs=sorted(set(cit[f])); seen=[];
    for _,r,_m in rs:
        if r not in seen: seen.append(r)
    out.append("* `%s` (%s): lines %s"%(f,", ".join(sorted({m for _,_,m in rs})),", ".join(seen)))
out+=["","Not modelled: floating-point rounding (scalars are exact: integers, rationals, reals or an abstract ring/field), machine-integer overflow unless a model says otherwise, memory allocation, I/O and console output, OpenGL/CUDA/OpenMP back ends, and every file of `include/delfem2` that is not listed above:","",
 ", ".join("`%s`"%f for f in files if f not in cit)+".",""]
p="/verif/DESIGN.md"; s=open(p).read()
sec="\n".join(out)+"\n"
if "## What is modelled" in s:
    a=s.index("## What is modelled"); b=s.index("## Assumptions per theorem"); s=s[:a]+sec+s[b:]
else:
    b=s.index("## Assumptions per theorem"); s=s[:b]+sec+s[b:]
open(p,"w").write(s)
