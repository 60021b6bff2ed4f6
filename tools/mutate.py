"""Mutation testing of the theorems (run in a scratch copy, never inside /verif/rocq).
usage: mutate.py mutants.json   -- list of {file, old, new, definition, edit, claim}
For each mutant: copy the theories, apply the edit, build; whenever a proof breaks, replace it by
Admitted and continue; finally ask Print Assumptions which property theorems rest on a broken proof.
One JSON line per mutant is appended to /verif/seeded/LOG.jsonl (unless --dry)."""
import time,json,os,re,subprocess,sys,shutil,glob
root=os.path.dirname(os.path.dirname(os.path.abspath(__file__)))
W="/tmp/mut/rocq"
def sh(c,**k): return subprocess.run(c,shell=True,capture_output=True,text=True,**k)
def snapshot():
    "build the last commit once; every mutant starts from a copy of it"
    sh(f"rm -rf /tmp/mut/base /tmp/mut/rocq; mkdir -p /tmp/mut/base; git -C {root} archive HEAD rocq | tar -x -C /tmp/mut/base")
    r=sh("cd /tmp/mut/base/rocq && coq_makefile -f _CoqProject -o Makefile && make -j4")
    if r.returncode: sys.exit("baseline does not build: "+r.stdout[-500:]+r.stderr[-500:])
def fresh():
    sh(f"rm -rf {W}; cp -a /tmp/mut/base/rocq {W}; sed -i '/theories.Ex_/d' {W}/_CoqProject")   # examples prove no property
HEAD=re.compile(r"^\s*(?:Local |Global )?(?:Lemma|Theorem|Example|Corollary|Fact|Instance|Definition|Program Definition)\s+([A-Za-z0-9_']+)",re.M)
def admit(path,line):
    s=open(path).read(); off=sum(len(l)+1 for l in s.split("\n")[:line-1])+1
    ms=[m for m in HEAD.finditer(s) if m.start()<off]
    if not ms: return None
    # error may be on the line of the head itself
    ln_end=s.index("\n",off-1) if "\n" in s[off-1:] else len(s)
    m=[m for m in HEAD.finditer(s) if m.start()<=ln_end][-1]
    i=s.find("Proof",m.end()); q=re.compile(r"\b(Qed|Defined)\.").search(s,m.end())
    if q is None: return None
    if i<0 or i>q.start(): return None
    nxt=HEAD.search(s,m.end())
    if nxt and nxt.start()<i: return None
    s=s[:i]+"Admitted."+s[q.end():]
    open(path,"w").write(s); return m.group(1)
def run(mu):
    fresh(); p=f"{W}/theories/{mu['file']}"; s=open(p).read()
    n=s.count(mu["old"])
    if n!=1: return dict(error=f"pattern occurs {n} times")
    open(p,"w").write(s.replace(mu["old"],mu["new"]))
    broken=[]; t0=time.time()-1
    for it in range(80):
        r=sh(f"cd {W} && coq_makefile -f _CoqProject -o Makefile >/dev/null && timeout 2400 make COQC='timeout 240 coqc' COQEXTRAFLAGS=\"-set 'Default Timeout=150'\" -k -j${{MUTJ:-2}} 2>&1")
        out=r.stdout
        es=re.findall(r'File "\./theories/(\w+\.v)", line (\d+), characters [^\n]*\n(?:Error|In nested|.*\n)?',out)
        es=[(f,int(l)) for f,l in re.findall(r'File "\./theories/(\w+\.v)", line (\d+), characters [\d-]+:\nError',out)]
        if r.returncode==0: break
        if not es: return dict(error="build failed: "+out[-300:],broken=broken)
        prog=False
        for f,l in es:
            nm=admit(f"{W}/theories/{f}",l)
            if nm: broken.append(nm); prog=True
        if not prog: return dict(error="not in a proof: "+str(es)+out[-300:],broken=broken)
    # which property theorems depend on broken proofs
    failed=[]
    if broken:
        names=[]; mods=[]
        for f in sorted(glob.glob(f"{W}/theories/P_*.v")):
            if os.path.getmtime(f+"o")<=t0: continue      # not rebuilt: does not depend on the edit
            ns=re.findall(r"^(?:Theorem|Corollary)\s+(C\d+_\w+)",open(f).read(),re.M)
            mods.append(os.path.basename(f)[:-2]); names+=ns
        os.makedirs("/tmp/mut/pa",exist_ok=True)
        for x in glob.glob("/tmp/mut/pa/*"): os.remove(x)
        z="From Verif Require Import "+" ".join(mods)+".\n"+"".join(f'Redirect "/tmp/mut/pa/{n}" Print Assumptions {n}.\n' for n in names)
        open("/tmp/mut/zz.v","w").write(z)
        r=sh(f"cd {W} && coqc -Q theories Verif /tmp/mut/zz.v"); 
        bs=set(broken)
        for n in names:
            t=open(f"/tmp/mut/pa/{n}.out").read() if os.path.exists(f"/tmp/mut/pa/{n}.out") else ""
            used=set(re.findall(r"^([A-Za-z0-9_'.]+)\s*:",t,re.M))|set(re.findall(r"^([A-Za-z0-9_'.]+)$",t,re.M))
            used={u.split(".")[-1] for u in used}
            if n in bs or used&bs: failed.append(n)
    return dict(broken=broken,failed=failed)
if __name__=="__main__":
    dry="--dry" in sys.argv
    if "--keep" not in sys.argv: snapshot()
    for mu in json.load(open(sys.argv[1])):
        r=run(mu)
        print(mu["definition"],"|",mu["edit"],"->",json.dumps(r)[:600],flush=True)
        if not dry and "error" not in r:
            e=dict(definition=mu["definition"],edit=mu["edit"],claim_broken=mu["claim"],theorems_failed=r["failed"] or r["broken"],theorems_tightened=mu.get("tightened",[]))
            if not r["broken"]: e["note"]=mu.get("note","survived")
            open(f"{root}/seeded/LOG.jsonl","a").write(json.dumps(e,ensure_ascii=False)+"\n")
