#!/usr/bin/env python3
"""Mutation testing of the theorems, in scratch copies outside /verif.

  mutate.py prepare            copy /verif/rocq (compiled) to /tmp/mut/base, record `Proof using` of every lemma
  mutate.py run WORK FILE.json ...  run the mutants of the given lists; results go to /tmp/mut/results/ID.json

A run first builds only the Prop files with theorems of the properties named in the claim (or in "targets"); if none of
those fails, or none is named, it builds everything. A mutant whose own file no longer type checks is not an attempt.

A mutant is {"id","file","def","old","new","claim"}: replace the (unique) text old by new in theories/file.
In the scratch copy, a proof that no longer goes through is replaced by an (axiom) placeholder, so that
everything that does not depend on it is still checked; at the end every C.. theorem is asked for its
assumptions: a theorem has failed when it is itself, or depends on, such a placeholder.
Nothing of this touches /verif."""
import sys, os, re, time, concurrent.futures, json, subprocess, shutil, glob
ROOT="/tmp/mut"; BASE=os.environ.get("MUT_BASE", ROOT+"/base")
STMT=re.compile(r'^[ \t]*(?:#\[[^\]]*\][ \t]*)?(?:Local |Global |Program )?(Lemma|Theorem|Corollary|Example|Fact|Remark|Proposition|Instance|Definition|Fixpoint)\s+([A-Za-z_0-9\']+)', re.M)
def sh(cmd, cwd, timeout=None):
    try:
        p=subprocess.run(cmd, cwd=cwd, shell=True, stdout=subprocess.PIPE, stderr=subprocess.STDOUT, timeout=timeout, text=True, errors='replace')
        return p.returncode, p.stdout
    except subprocess.TimeoutExpired as e:
        return 124, (e.stdout or b'').decode(errors='replace') if isinstance(e.stdout,bytes) else (e.stdout or '')
def files():
    return [l.strip() for l in open(BASE+"/_CoqProject") if l.strip().endswith('.v')]
def prepare():
    shutil.rmtree(BASE, ignore_errors=True); os.makedirs(ROOT+"/results", exist_ok=True)
    shutil.copytree("/verif/rocq", BASE)
    using={}
    for f in files():
        rc,out=sh(f'coqc -set "Suggest Proof Using=yes" -Q theories Verif {f}', BASE)
        if rc!=0: print("base failure", f, out[-500:]); sys.exit(1)
        m=os.path.basename(f)[:-2]
        for n,u in re.findall(r'The proof of (\S+)\s+should start with one of the following commands:\s*Proof using ([^.]*)\.', out):
            using[m+"."+n]=u.strip()
        print(f, len(using), flush=True)
    json.dump(using, open(ROOT+"/using_"+os.path.basename(BASE)+".json","w"))
def theorems():
    r=[]
    for f in sorted(glob.glob(BASE+"/theories/Prop*.v")):
        m=os.path.basename(f)[:-2]
        for n in re.findall(r'^Theorem (C\d\d_\w+)', open(f).read(), re.M): r.append((m,n))
    return r
def patch(path, mod, line, col, using):
    """replace the proof around (line, col) by a placeholder; returns lemma name or None"""
    s=open(path).read()
    pos=0
    for _ in range(line-1): pos=s.index("\n",pos)+1
    pos=max(0,pos+min(col,200))
    st=None
    for m in STMT.finditer(s):
        if m.start()<=pos: st=m
        else: break
    if st is None: return None
    pr=re.compile(r'\bProof\b').search(s, st.end())
    nx=STMT.search(s, st.end())
    # a Definition without proof, or error inside the statement
    if pr is None or (nx is not None and nx.start()<pr.start() and nx.group(1)!='Definition' ): return None
    if pos<pr.start(): return None
    en=re.compile(r'\b(Qed|Defined|Admitted)\.').search(s, pr.start())
    if en is None or en.group(1)=='Admitted': return None
    name=st.group(2)
    u=using.get(mod+"."+name)
    body="Proof"+(f" using {u}" if u is not None else "")+". Admitted."
    s=s[:pr.start()]+body+s[en.end():]
    open(path,"w").write(s)
    return name
def apply(s, mut):
    """replace the nth (default first) occurrence of old inside the text that starts at the definition def"""
    m=re.search(r'^(?:#\[export\] )?(?:Definition|Fixpoint|Inductive|Record|Instance|Class)\s+'+re.escape(mut['def'])+r'\b', s, re.M)
    if not m: return None
    i=m.start()-1
    end=re.search(r'\n\n(?=\(\*\*|Definition|Fixpoint|Section|End)|\n(?=Definition|Fixpoint|End )', s[m.end():])
    lim=m.end()+end.start() if end else len(s)
    for _ in range(mut.get('nth',1)):
        i=s.find(mut['old'], i+1)
    if i<0 or i>=lim: return None
    return s[:i]+mut['new']+s[i+len(mut['old']):]
def targets(mut):
    """Prop modules that hold theorems of the properties the claim names"""
    if "targets" in mut: return list(mut["targets"])
    ids=set(re.findall(r'C\d\d', mut["claim"].split(":")[0]))
    for a,b in re.findall(r'C(\d\d)-C(\d\d)', mut["claim"].split(":")[0]): ids|={"C%02d"%i for i in range(int(a),int(b)+1)}
    return sorted({m for m,n in theorems() if n[:3] in ids})
def run(mut, work):
    t=targets(mut); r=None
    if t:
        r=run1(mut, work, t)
        if r.get("error") or r["theorems_failed"] or r["theorems_not_rebuilt"]: return r
    return run1(mut, work, None)
def run1(mut, work, tg, jobs=2, tmo=2400):
    using=json.load(open(ROOT+"/using_"+os.path.basename(BASE)+".json"))
    shutil.rmtree(work, ignore_errors=True); sh(f"cp -a {BASE} {work}", "/")
    p=f"{work}/theories/{mut['file']}"
    s=open(p).read()
    s2=apply(s, mut)
    if s2 is None: return {**mut,"error":"definition or text not found"}
    open(p,"w").write(s2)
    t0=time.time()
    for x in (".vo",".vos",".vok",".glob"):
        q=p[:-2]+x
        if os.path.exists(q): os.remove(q)
    admitted=[]; dead=[]; log=[]
    for it in range(40):
        rc,out=sh(f"timeout {tmo} nice make -k -j{jobs} {' '.join('theories/'+m+'.vo' for m in tg) if tg else ''} 2>&1", work)
        errs=re.findall(r'File "\./theories/(\w+)\.v", line (\d+), characters (-?\d+)-(-?\d+):\n(Error:[^\n]*(?:\n[^\n]*){0,3})', out)
        errs=[e for e in errs if e[0] not in dead]
        if not errs:
            if rc!=0: log.append(out[-600:])
            break
        prog=False
        for mod,l,c,_,msg in errs:
            n=patch(f"{work}/theories/{mod}.v", mod, int(l), int(c), using)
            log.append(f"{mod}:{l}: {n}: {' '.join(msg.split())[:160]}")
            if n is None and mod==mut['file'][:-2]: return {**mut,"error":"the edited file does not type check: "+' '.join(msg.split())[:300]}
            if n is None: dead.append(mod)
            else: admitted.append(mod+"."+n); prog=True
        if not prog: break
        if len(admitted)>40: break
    # assumptions
    failed=[]; notbuilt=[]
    ths=[x for x in theorems() if tg is None or x[0] in tg]; mods=sorted({m for m,_ in ths})
    src=""; ok=[m for m in mods if os.path.exists(f"{work}/theories/{m}.vo") and (m+".vo")]
    stale=set()
    # a module whose .vo cannot be loaded (a dependency changed or is missing) counts as not rebuilt;
    # a module whose .vo is untouched does not depend on the edited file
    def ask(m):
        vo=f"{work}/theories/{m}.vo"
        q="From Verif Require "+m+".\n"
        stale=os.path.exists(vo) and os.path.getmtime(vo)<t0
        if not stale:
            q+="".join(f'Goal True. idtac "@@ {n}". exact I. Qed.\nPrint Assumptions {m}.{n}.\n' for mm,n in ths if mm==m)
        open(f"{work}/Q{m}.v","w").write(q)
        return m, sh(f"timeout 1200 nice coqc -Q theories Verif Q{m}.v", work)
    with concurrent.futures.ThreadPoolExecutor(jobs) as ex: ans=list(ex.map(ask, mods if admitted or dead else []))
    for m,(rc,out) in ans:
        if rc!=0:
            notbuilt+= [n for mm,n in ths if mm==m]; continue
        for part in out.split("@@ ")[1:]:
            n=part.split()[0]
            if any(re.search(r'(^|[\s.])'+re.escape(a.split(".")[1])+r'\s*:', part) for a in admitted): failed.append(n)
    return {**mut,"broken_proofs":admitted,"files_not_rebuilt":dead,"theorems_failed":failed,"theorems_not_rebuilt":notbuilt,"seconds":int(time.time()-t0),"log":log,"built":tg or "all"}
if __name__=="__main__":
    if sys.argv[1]=="prepare": prepare()
    elif sys.argv[1]=="check":
        for f in sys.argv[2:]:
            for m in json.load(open(f)):
                t=open("/verif/rocq/theories/"+m['file']).read()
                if apply(t,m) in (None,t): print("BAD", m['id'])
    else:
        work=ROOT+"/"+sys.argv[2]
        for f in sys.argv[3:]:
            for m in json.load(open(f)):
                o=f"{ROOT}/results/{m['id']}.json"
                if os.path.exists(o): continue
                open(o,"w").write("{}")
                r=run(m, work)
                json.dump(r, open(o,"w"), indent=1)
                print(m['id'], r.get("error"), "failed", len(r.get("theorems_failed",[])), "notbuilt", len(r.get("theorems_not_rebuilt",[])), r.get("broken_proofs"), flush=True)
