#!/usr/bin/env python3
"""Automatic mutation of the model, in scratch copies outside /verif.

  automutate.py list [SEED]              write the mutant list to /tmp/am/list.json
  automutate.py run WORKER NWORKERS      run every NWORKERS-th mutant; results in /tmp/am/results/ID.json

Every definition of the model files is edited by small operators (+/-, off by one, < for <=, swapped
components, dropped statement, wrong axis, ...).  The mutant is compiled against the unchanged
theorems with plain make, in dependency order, until the first failure: the failing lemma or theorem
is the one that catches it.  AM_ROOT and AM_MODEL choose another scratch root and other files.  A mutant with which everything still builds is a survivor."""
import sys, os, re, json, random, subprocess, shutil, time
ROOT=os.environ.get("AM_ROOT","/tmp/am"); BASE=ROOT+"/base"
MODEL=os.environ["AM_MODEL"].split(",") if "AM_MODEL" in os.environ else ["Linalg","Stencils","Cheb","Compo","Fourier","FourierF64","Bases","NdArray","Space","Decomp","MpiSem","SpaceMpi","Utils","ExtLib"]
OPS=[(r'<\?','<=?'),(r'<=\?','<?'),(r'=\?','<=?'),(r' \+ 1\b',''),(r' - 1\b',''),(r' \+ ',' - '),(r'(?<!\() - ',' + '),(r' \* ',' + '),
 (r'\bnadd\b','nsub'),(r'\bnsub\b','nadd'),(r'\bnmul\b','nadd'),(r'\bndiv\b','nmul'),(r'\bvadd\b','vsub'),(r'\bvsub\b','vadd'),(r'\btrue\b','false'),(r'\bfalse\b','true'),
 (r'\bfst\b','snd'),(r'\bsnd\b','fst'),(r'\bcos\b','sin'),(r'\bsin\b','cos'),(r'\btcos\b','tsin'),(r'\btsin\b','tcos'),
 (r'(?<![\w.])0(?![\w.])','1'),(r'(?<![\w.])1(?![\w.])','2'),(r'(?<![\w.])1(?![\w.])','0'),(r'(?<![\w.])2(?![\w.])','1'),(r'(?<![\w.])2(?![\w.])','3'),(r'(?<![\w.])3(?![\w.])','2'),
 (r'\bn1\b','n0'),(r'\bn0\b','n1'),(r'\bn2\b','n1'),(r'(\w)0\b',r'\g<1>1'),(r'(\w)1\b',r'\g<1>0'),(r'(\w)1\b',r'\g<1>2'),(r'(\w)2\b',r'\g<1>1'),
 (r'\blen_orth\b','len_spec'),(r'\blen_spec\b','len_orth'),(r'\blen_phys\b','len_spec'),(r'\blen_spec\b','len_phys'),
 (r'\bChecked\b','Unchecked'),(r'\bforward_slice\b','backward_slice'),(r'\bto_ortho_slice\b','from_ortho_slice'),(r'\bfrom_ortho_slice\b','to_ortho_slice'),
 (r'\bst_lower\b','st_diag'),(r'(\bx_)','y_'),(r'(\by_)','x_'),(r'&&','||'),(r'\|\|','&&'),(r'\bnopp\b ?',''),(r'\blow\b','up'),(r'\bup\b','low'),(r'\brev ',''),
 (r'[^\n;:=]*;;\s*',''),(r'\bif ','if negb '),(r'\bmin\b','max'),(r'\bmax\b','min'),(r'/ 2','/ 3'),(r'\bwr\b','wr'),(r'(\bnofZ )\(?(-?\d+)\)?',r'\1(\2 + 1)')]
def defs(mod):
    s=open(f"{BASE}/theories/{mod}.v").read()
    out=[]
    for m in re.finditer(r'^(?:#\[[^\]]*\]\s*)?(?:Local )?(?:Definition|Fixpoint|Instance)\s+([A-Za-z_0-9\']+)', s, re.M):
        j=s.find(":=", m.end())
        e=re.compile(r'\.(?=\s*(?:\n|$))').search(s, m.end())
        if not e or j<0 or j>e.start(): continue
        out.append((m.group(1), j+2, e.start()))
    return s,out
def mklist(seed):
    rnd=random.Random(seed); L=[]
    for mod in MODEL:
        s,ds=defs(mod)
        for name,a,b in ds:
            body=s[a:b]
            com=[(m.start(),m.end()) for m in re.finditer(r'\(\*.*?\*\)',body,re.S)]
            c=[]
            for pat,rep in OPS:
                for m in re.finditer(pat, body):
                    if any(x<=m.start()<y for x,y in com): continue
                    new=m.expand(rep)
                    if new!=m.group(0): c.append((a+m.start(), a+m.end(), new))
            rnd.shuffle(c)
            k=max(2, min(8, len(body)//90))
            for x,y,new in c[:k]:
                ln=s.count("\n",0,x)+1
                L.append({"file":mod+".v","def":name,"line":ln,"pos":[x,y],"old":s[x:y],"new":new,"context":s[max(a,x-30):x]+"[["+s[x:y]+" => "+new+"]]"+s[y:min(b,y+30)]})
    rnd.shuffle(L)
    for i,m in enumerate(L): m["id"]="A%d_%04d"%(seed,i)
    os.makedirs(ROOT+"/results",exist_ok=True)
    json.dump(L, open(ROOT+"/list.json","w"), indent=1); print(len(L))
def runone(m, work):
    sh=lambda c,t=None: subprocess.run(c,shell=True,stdout=subprocess.PIPE,stderr=subprocess.STDOUT,text=True,errors='replace',timeout=t)
    sh(f"rm -rf {work}; cp -a {BASE} {work}")
    p=f"{work}/theories/{m['file']}"; s=open(p).read(); x,y=m["pos"]; open(p,"w").write(s[:x]+m["new"]+s[y:])
    t0=time.time(); mod=m["file"][:-2]
    r=sh(f"cd {work} && timeout 300 coqc -Q theories Verif theories/{m['file']}")
    res={**m}
    if r.returncode!=0: res["verdict"]="ill-typed or own lemma"; res["msg"]=r.stdout[-300:]; 
    else:
        r=sh(f"cd {work} && touch theories/{m['file']} && timeout 3000 nice make -j1 2>&1")
        e=re.search(r'File "\./theories/(\w+)\.v", line (\d+), characters [^\n]*\n(Error:?[^\n]*(?:\n[^\n]*){0,2})', r.stdout)
        if r.returncode==0: res["verdict"]="SURVIVED"
        elif e:
            t=open(f"{work}/theories/{e.group(1)}.v").read().split("\n")[:int(e.group(2))]
            lem=None
            for l in t:
                q=re.match(r'\s*(?:Local )?(?:Lemma|Theorem|Corollary|Example|Definition|Fixpoint|Instance)\s+([\w\']+)', l)
                if q: lem=q.group(1)
            res["verdict"]="caught"; res["by"]=e.group(1)+"."+str(lem); res["msg"]=e.group(3)[:200]
        else: res["verdict"]="timeout" if r.returncode==124 else "?"; res["msg"]=r.stdout[-300:]
    res["secs"]=round(time.time()-t0)
    return res
if sys.argv[1]=="list": mklist(int(sys.argv[2]) if len(sys.argv)>2 else 1)
else:
    w,n=int(sys.argv[2]),int(sys.argv[3])
    for i,m in enumerate(json.load(open(ROOT+"/list.json"))):
        f=f"{ROOT}/results/{m['id']}.json"
        if i%n!=w or os.path.exists(f): continue
        r=runone(m, f"{ROOT}/w{w}"); json.dump(r,open(f,"w"),indent=1); print(m["id"],r["verdict"],r.get("by",""),r["secs"],m["file"],m["def"],flush=True)
