"""Fast mutation screening (in scratch copies, never inside /verif/rocq).
usage: screen.py mutants.json      hand-written mutants {file, old, new, definition, edit, claim}
       screen.py --auto [M_File..] one generated mutant for every definition of the model that LOG.jsonl does not name
       screen.py --auto --again    one more generated mutant for every definition, random order, not yet in LOG.jsonl
Each mutant starts from a built copy of the last commit; the build stops at the first broken proof.
theorems_failed: the property theorems whose proofs use the broken proof (by name, transitively).
One JSON line per mutant is appended to /verif/seeded/LOG.jsonl (unless --dry)."""
import json,os,re,subprocess,sys,glob,threading,random
root=os.path.dirname(os.path.dirname(os.path.abspath(__file__)))
B="/tmp/scr"; lock=threading.Lock()
dry="--dry" in sys.argv
def sh(c,**k): return subprocess.run(c,shell=True,capture_output=True,text=True,**k)
def snapshot():
    sh(f"rm -rf {B}/base; mkdir -p {B}/base; git -C {root} archive HEAD rocq | tar -x -C {B}/base")
    need=set(re.findall(r"\bEx_\w+","".join(open(f).read() for f in glob.glob(f"{B}/base/rocq/theories/P*.v"))))   # examples prove no property
    for f in glob.glob(f"{B}/base/rocq/theories/Ex_*.v"):
        n=os.path.basename(f)[:-2]
        if n not in need: sh(f"sed -i '/theories.{n}.v/d' {B}/base/rocq/_CoqProject")
    r=sh(f"cd {B}/base/rocq && coq_makefile -f _CoqProject -o Makefile && nice make -j3 -k")
DEF=re.compile(r"^\s*(?:Local |Global )?(Lemma|Theorem|Example|Corollary|Fact|Instance|Definition|Fixpoint|Function|Program Definition|Record|Inductive|Ltac|Notation)\s+([A-Za-z0-9_']+)",re.M)
ID=re.compile(r"[A-Za-z_][A-Za-z0-9_']*")
def graph():
    "use relation between (file, name); a name is looked up in its own file and in the files it requires"
    txt={}; defs={}; req={}
    for f in glob.glob(f"{B}/base/rocq/theories/*.v"):
        n=os.path.basename(f)[:-2]; s=re.sub(r"\(\*.*?\*\)","",open(f).read(),flags=re.S); ms=list(DEF.finditer(s))
        req[n]=set(ID.findall(" ".join(re.findall(r"From Verif Require (?:Import|Export)([^.]*)\.",s))))
        defs[n]={m.group(2) for m in ms}
        for i,m in enumerate(ms):
            txt.setdefault((n,m.group(2)),set()).update(ID.findall(s[m.end():ms[i+1].start() if i+1<len(ms) else len(s)]))
    rev={}
    for (n,nm),u in txt.items():
        for x in u:
            src=[n] if x in defs[n] else [r for r in req[n] if r in defs and x in defs[r]]
            for r in src:
                if (r,x)!=(n,nm): rev.setdefault((r,x),set()).add((n,nm))
    return rev,{k for k in txt if k[0].startswith("P_") and re.match(r"C\d+_",k[1])}
def dependents(f,nm,g):
    rev,thms=g; k=(f[:-2],nm); seen={k}; st=[k]
    while st:
        for y in rev.get(st.pop(),()):
            if y not in seen: seen.add(y); st.append(y)
    return sorted(t[1] for t in thms if t in seen)
def proof_at(path,line):
    "name of the statement whose proof contains the line, None if the line is not in a proof"
    s=open(path).read(); L=s.split("\n"); off=sum(len(l)+1 for l in L[:line-1]); end=off+len(L[line-1])
    m=[m for m in DEF.finditer(s) if m.start()<=end]
    if not m: return None
    m=m[-1]
    if m.group(1) not in("Lemma","Theorem","Example","Corollary","Fact","Instance"): return None
    i=s.find("Proof",m.end())
    if i<0 or i>end: return None
    return m.group(2)
def run(mu,w):
    W=f"{B}/w{w}"
    sh(f"rm -rf {W}; cp -a {B}/base/rocq {W}"); p=f"{W}/theories/{mu['file']}"; s=open(p).read()
    if s.count(mu["old"])!=1: return dict(error=f"pattern occurs {s.count(mu['old'])} times")
    open(p,"w").write(s.replace(mu["old"],mu["new"]))
    r=sh(f"cd {W} && nice timeout 3000 make COQC='timeout 400 coqc' COQEXTRAFLAGS=\"-set 'Default Timeout=120'\" -j1 2>&1")
    if r.returncode==0: return dict(broken=None)
    es=re.findall(r'File "\./theories/(\w+\.v)", line (\d+), characters [\d-]+:\nError',r.stdout)
    if not es: return dict(error="build failed: "+r.stdout[-300:])
    f,l=es[0]; nm=proof_at(f"{W}/theories/{f}",int(l))
    if not nm: return dict(error=f"not in a proof: {f} {l}")
    return dict(broken=nm,file=f)
# ---- generated mutants ----
RULES=[("+ replaced by -",r"(?<=[\w\)\]] )\+(?= [\w\(])","-"),("- replaced by +",r"(?<=[\w\)\]] )-(?= [\w\(])","+"),
 ("<? replaced by <=?",r"<\?","<=?"),("<=? replaced by <?",r"<=\?","<?"),("Z.ltb replaced by Z.leb",r"\bZ\.ltb\b","Z.leb"),("Z.leb replaced by Z.ltb",r"\bZ\.leb\b","Z.ltb"),
 ("comparison negated",r"\(([^()]* =\? [^()]*)\)",r"(negb (\1))"),("if condition negated",r"\bif (\([^()]*(?:\([^()]*\)[^()]*)*\)|[\w ]+?) then",r"if negb (\1) then"),
 ("true replaced by false",r"\btrue\b","false"),("false replaced by true",r"\bfalse\b","true"),("&& replaced by ||",r"&&","||"),("|| replaced by &&",r"\|\|","&&"),
 ("zrange 0 replaced by zrange 1",r"\bzrange 0\b","zrange 1"),("factor 2 replaced by 3",r"(?<![\w.%])2(?![\w.])","3"),("constant 1 replaced by 2",r"(?<![\w.%])1(?![\w.])","2"),("constant 0 replaced by 1",r"(?<![\w.%])0(?![\w.])","1"),
 ("fst replaced by snd",r"\bfst\b","snd"),("snd replaced by fst",r"\bsnd\b","fst"),("cos replaced by sin",r"\bcos\b","sin"),("sin replaced by cos",r"\bsin\b","cos"),
 ("first element dropped",r"\bOk \((\w+)\)",r"Ok (tl \1)"),("* replaced by +",r"(?<=[\w\)\]] )\*(?= [\w\(])","+"),("/ replaced by *",r"(?<=[\w\)\]] )/(?= [\w\(])","*"),
 ("list reversed",r"\bmap (\w+) (\w+)\b",r"rev (map \1 \2)"),("Ok replaced by UB",r"\bOk \w+\b","UB"),("conjugation dropped",r"\bkconj\b",""),("Some replaced by None",r"\bSome \w+\b","None"),
 ("operands of ++ swapped",r"([\w.]+|\([^()]*\)) \+\+ ([\w.]+|\([^()]*\))",r"\2 ++ \1"),("first two arguments swapped",r"(?<=\()(\w+) (\w+) (\w+)(?=[ \)])",r"\1 \3 \2"),("last two arguments swapped",r"(\w+) (\w+)\)",r"\2 \1)")]
def auto(files):
    named=set(); again='--again' in sys.argv; edits=set(); out=[]
    for l in open(f"{root}/seeded/LOG.jsonl"):
        for x in ID.findall(json.loads(l)["definition"]): named.add(x)
        edits.add(json.loads(l)["edit"])
    if again: named=set()
    for f in files or sorted(os.path.basename(x)[:-2] for x in glob.glob(f"{B}/base/rocq/theories/M_*.v")):
        s=open(f"{B}/base/rocq/theories/{f}.v").read(); ms=list(re.finditer(r"^\s*(?:Definition|Fixpoint)\s+([A-Za-z0-9_']+)",s,re.M))
        allm=list(DEF.finditer(s))
        for m in ms:
            if m.group(1) in named: continue
            nx=[x.start() for x in allm if x.start()>m.start()]; e=nx[0] if nx else len(s)
            t=s[m.start():e]; t=re.sub(r"\s*\(\*\*(?:.(?!\*\)))*.?\*\)\s*$","",t,flags=re.S)
            k=re.search(r":=",t)
            if not k or s.count(t)!=1: continue
            h,b=t[:k.end()],t[k.end():]; c=[]
            for name,a,r in RULES:
                hits=[x for x in re.finditer(a,b) if "(*" not in b[:x.start()].split("*)")[-1]]
                for x in hits[:6 if again else 2]:
                    nb=b[:x.start()]+x.expand(r)+b[x.end():]
                    c.append(dict(file=f+".v",old=t,new=h+nb,definition=m.group(1),edit=name+(f" in '{b[max(0,x.start()-25):x.end()+25].strip()}'".replace("\n"," ")),claim=None))
            if again:
                c=[x for x in c if x["edit"] not in edits]; random.shuffle(c)
                if c: out.append(c)
            elif c: yield c
    random.shuffle(out)
    yield from out
TITLE={}
def titles():
    for l in open(f"{root}/properties.jsonl"):
        x=json.loads(l); TITLE[x["id"]]=x["title"]
def worker(q,w,g):
    while True:
        with lock:
            c=next(q,None)
        if c is None: return
        done=False
        for mu in c[:6]:
            r=run(mu,w)
            if "error" in r:
                if len(c)==1 or c[0]["claim"]: print(mu["definition"],"|",mu["edit"],"->",r,flush=True)
                continue
            fails=dependents(r["file"],r["broken"],g) if r["broken"] else []
            with lock:
                print(mu["file"],mu["definition"],"|",mu["edit"],"->",r["broken"],fails[:6],flush=True)
                if r["broken"] and fails and not dry:
                    claim=mu["claim"] or "; ".join(sorted({x.split("_")[0]+" "+TITLE.get(x.split("_")[0],"") for x in fails[:12]})[:3])
                    open(f"{root}/seeded/LOG.jsonl","a").write(json.dumps(dict(definition=mu["definition"],edit=mu["edit"],claim_broken=claim,theorems_failed=fails[:25],theorems_tightened=mu.get("tightened",[])),ensure_ascii=False)+"\n")
                elif not r["broken"]: open(f"{B}/survivors.jsonl","a").write(json.dumps(mu)+"\n")
            done=True; break
        if not done: print(c[0]["file"],c[0]["definition"],"| no valid mutant",flush=True)
if __name__=="__main__":
    a=[x for x in sys.argv[1:] if not x.startswith("--")]; titles(); os.makedirs(B,exist_ok=True)
    if "--keep" not in sys.argv: snapshot()
    g=graph()
    q=auto(a) if "--auto" in sys.argv else iter([[m] for m in json.load(open(a[0]))])
    if "--list" in sys.argv:
        for c in q: print(c[0]["file"],c[0]["definition"],len(c),c[0]["edit"])
        sys.exit()
    ts=[threading.Thread(target=worker,args=(q,w,g)) for w in range(int(os.environ.get("MUTJ","2")))]
    for t in ts: t.start()
    for t in ts: t.join()
