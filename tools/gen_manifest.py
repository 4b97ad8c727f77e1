#!/usr/bin/env python3
"""Writes /verif/MANIFEST.json; checks that every named theorem exists in rocq/theories/P_*.v and
that every theorem of a P_ file is claimed."""
import json,re,glob,sys
C=[]
def c(prop,status,theorems,note=""):
    C.append(dict(property=prop,status=status,theorems=theorems.split(),note=note))
exec(open("/verif/tools/claims.py").read())
have=set()
for f in glob.glob("/verif/rocq/theories/P_*.v"):
    have|=set(re.findall(r"^(?:Theorem|Corollary)\s+(\w+)",open(f).read(),re.M))
claimed=set(t for x in C for t in x["theorems"])
bad=[t for t in claimed if t not in have]
un=[t for t in have if t not in claimed]
ids=[json.loads(l)["id"] for l in open("/verif/properties.jsonl")]
missing=[i for i in ids if i not in [x["property"] for x in C]]
print("missing theorems:",bad); print("unclaimed:",un); print("properties without claim:",missing)
json.dump({"claims":C},open("/verif/MANIFEST.json","w"),indent=1)
