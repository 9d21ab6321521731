#!/usr/bin/env python3
"""Regenerate MANIFEST.json: theorems named Cnn_* in rocq/theories/Prop*.v; notes in tools/notes.json."""
import re,json,glob,os
root=os.path.dirname(os.path.dirname(os.path.abspath(__file__)))
props=[json.loads(l)["id"] for l in open(root+"/properties.jsonl") if l.strip()]
notes=json.load(open(root+"/tools/notes.json"))
thms={p:[] for p in props}
for f in sorted(glob.glob(root+"/rocq/theories/Prop*.v")):
    for m in re.finditer(r"^\s*Theorem ((C\d\d+)_\w+)",open(f).read(),re.M):
        thms.setdefault(m.group(2),[]).append(m.group(1))
claims=[]
for p in props:
    n=notes.get(p,{})
    ts=thms[p]
    if not ts and n.get("status")!="not_applicable":
        print("missing",p); continue
    st=n.get("status") or ("partial" if any(t.endswith("_partial") or t.endswith("_refuted") for t in ts) else "proved")
    claims.append({"property":p,"status":st,"theorems":ts,"note":n.get("note","")})
json.dump({"claims":claims},open(root+"/MANIFEST.json","w"),indent=1)
