#!/usr/bin/env python3
"""Turns the results of tools/mutate.py (/tmp/mut/results) into seeded/LOG.jsonl: one line per attempt, kept in the
order of the mutant numbers; attempts already logged and not rerun are kept. seeded/tightened.json says what was
added or strengthened in answer to an attempt, and how an attempt that broke nothing is judged."""
import json, os, glob
here=os.path.dirname(os.path.abspath(__file__)); V=os.path.dirname(here)
P=V+"/seeded/LOG.jsonl"
old={}
for l in open(P):
    if l.strip(): r=json.loads(l); old[r["id"]]=r
muts={}
for f in sorted(glob.glob(V+"/seeded/mutants_*.json")):
    for m in json.load(open(f)): muts[m["id"]]=m
tight=json.load(open(V+"/seeded/tightened.json"))
for i,m in muts.items():
    f=f"/tmp/mut/results/{i}.json"
    if os.path.exists(f):
        r=json.load(open(f))
        if not r or r.get("error"): continue
        if r["old"]!=m["old"] or r["new"]!=m["new"]: continue
        failed=sorted(set(r["theorems_failed"])|set(r["theorems_not_rebuilt"]))
        old[i]={"id":i,"definition":f"{m['file'][:-2]}.{m['def']}","edit":f"{m['old']}  ==>  {m['new'] or '(removed)'}","claim":m["claim"],
             "theorems_failed":failed,"proofs_broken":r["broken_proofs"],"theorems_tightened":[]}
        if r.get("built","all")!="all": old[i]["theorems_checked"]="those of "+", ".join(r["built"])
    if i in old:
        t=tight.get(i,{})
        old[i]["claim"]=m["claim"]
        old[i]["theorems_tightened"]=t.get("tightened",[])
        if "note" in t: old[i]["note"]=t["note"]
CL={"Linalg":"C15","Stencils":"C09-C14","Cheb":"C01-C08","Compo":"C09-C14, C18","Fourier":"C19-C24, C43, C47","FourierF64":"C43","Bases":"C25-C28","NdArray":"C25-C28",
 "Space":"C29-C32","Decomp":"C33-C37, C46","MpiSem":"C35, C36","SpaceMpi":"C38-C40, C48","Utils":"C42","ExtLib":"C53","Examples":"C61","MpiMix":"C61","Field":"C62","Elements":"C49-C51"}
# results of tools/automutate.py: the build stops at the first lemma or theorem that fails
for f in sorted(glob.glob("/tmp/am*/results/*.json")):
    r=json.load(open(f))
    if r["verdict"] not in ("caught","SURVIVED"): continue
    by=r.get("by",""); thm=by.split(".")[-1]; isthm=thm[:1]=="C" and thm[1:3].isdigit()
    i=r["id"]; t=tight.get(i,{})
    old[i]={"id":i,"definition":f"{r['file'][:-2]}.{r['def']}","edit":" ".join(r["context"].split()),"claim":CL[r["file"][:-2]]+": the statements on this definition",
        "theorems_failed":[thm] if isthm else [],"proofs_broken":[by] if by else [],"theorems_tightened":t.get("tightened",[]),"checked":"stopped at the first failure"}
    if "note" in t: old[i]["note"]=t["note"]
with open(P,"w") as o:
    for i in sorted(old): o.write(json.dumps(old[i])+"\n")
print(len(old), "logged;", "nothing failed and no note:", [i for i in sorted(old) if not old[i]["theorems_failed"] and not old[i]["proofs_broken"] and "note" not in old[i]])
