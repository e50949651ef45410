#!/usr/bin/env python3
"""Systematic mutation: automutate.py SNAPSHOT_DIR SEED PER_DEF OUT.jsonl [FILE.v ...]
For every definition of the model files, PER_DEF random small edits (boundary, branch, constant, swapped argument ...) are applied one at
a time in a scratch copy of the built project; the copy is rebuilt up to the first error.  One JSON line per mutant: killed by which lemma,
ill-typed, or survived."""
import sys,re,random,subprocess,json,os,shutil,glob,time
snap,seed,per,out=sys.argv[1],int(sys.argv[2]),int(sys.argv[3]),sys.argv[4]
random.seed(seed)
files=sys.argv[5:] or sorted(os.path.basename(f) for f in glob.glob(snap+"/theories/*_Model.v"))
OPS=[(r'<=\?','<?'),(r'(?<!=)<\?','<=?'),(r'\+ 1\b','+ 0'),(r'\+ 1\b','+ 2'),(r'- 1\b','- 0'),(r'\btrue\b','false'),(r'\bfalse\b','true'),(r'&&','||'),(r'\|\|','&&'),
 (r'\bfst\b','snd'),(r'\bsnd\b','fst'),(r'\bRltb\b','Rleb'),(r'\bRleb\b','Rltb'),(r'\bif (?!negb)','if negb '),(r'\b0\b','1'),(r'\b1\b','0'),(r'\b1\b','2'),(r'\b2\b','3'),
 (r'\bRmin\b','Rmax'),(r'\bRmax\b','Rmin'),(r'\bN\.shiftl\b','N.shiftr'),(r'\bN\.shiftr\b','N.shiftl'),(r'\bfirstn\b','skipn'),(r'\bskipn\b','firstn'),(r'\bN\.land\b','N.lor'),(r'\bN\.lor\b','N.land'),
 (r' < ',' <= '),(r' <= ',' < '),(r' - ',' + '),(r' \+ ',' - '),(r' \* ',' + '),(r'\bnegb \(','id ('),(r'\bmin\b','max'),(r'\bmax\b','min'),(r'\bcosh\b','sinh'),(r'\bsinh\b','cosh'),(r'\bi\b','j'),(r'\bj\b','i'),(r'\bu\b','v'),(r'\bcellA\b','cellB'),(r'\bl\b','(l + 1)'),(r'\brev\b','id'),(r' \+\+ ',' ++ [] ++ '),(r'\bS ','')]
def strip(s):
    # blank out comments
    r=[];d=0;i=0
    while i<len(s):
        if s.startswith('(*',i): d+=1;r.append('  ');i+=2;continue
        if s.startswith('*)',i) and d: d-=1;r.append('  ');i+=2;continue
        r.append(s[i] if d==0 or s[i]=='\n' else ' ');i+=1
    return ''.join(r)
work="/tmp/automut_%d"%os.getpid()
shutil.rmtree(work,ignore_errors=True); subprocess.run(["cp","-a",snap,work],check=True)
subprocess.run("cd %s && coq_makefile -f _CoqProject -o Makefile >/dev/null && make -j2 >/dev/null 2>&1"%work,shell=True)
def run(cmd,t):
    try: return subprocess.run("cd %s && timeout %d nice %s 2>&1"%(work,t,cmd),shell=True,capture_output=True,text=True)
    except Exception as e: return None
for f in files:
    p=work+"/theories/"+f; src=open(snap+"/theories/"+f).read(); cl=strip(src)
    defs=list(re.finditer(r'^[ \t]*(?:Definition|Fixpoint|Inductive)\s+(\w+)',cl,re.M))
    for k,m in enumerate(defs):
        end=re.compile(r'\.(?=\s)').search(cl,m.end())
        # definitions end at the first ". " outside of numbers
        e=end.start() if end else len(cl)
        body=cl.find(':=',m.start(),e)
        if body<0: continue
        cands=[]
        for a,b in OPS:
            for mm in re.finditer(a,cl[body+2:e]): cands.append((body+2+mm.start(),body+2+mm.end(),re.sub(a,b,mm.group(0)) ))
        random.shuffle(cands); done=0
        for (x,y,new) in cands[:8]:
            if done>=per: break
            mut=src[:x]+new+src[y:]
            open(p,'w').write(mut)
            t0=time.time()
            r=run("make theories/%so"%f,200)
            if r.returncode!=0: continue   # ill-typed
            done+=1
            r=run("make -j2",700)
            o=r.stdout; mm=re.search(r'File "\./(theories/\S+\.v)", line (\d+)[^\n]*\n(?:(?!File)[^\n]*\n)*?Error',o)
            name=None
            if mm:
                lines=open(work+"/"+mm.group(1)).read().split("\n")[:int(mm.group(2))]
                for l in reversed(lines):
                    q=re.match(r'\s*(?:Theorem|Lemma|Example|Corollary|Definition|Fixpoint|Fact|Remark|Instance)\s+(\w+)',l)
                    if q: name=mm.group(1).split('/')[-1]+":"+q.group(1);break
            ctx=lambda s,d=0: s[max(0,x-45):y+45+d].replace("\n"," ")
            rec={"definition":f+":"+m.group(1),"edit":src[max(0,x-40):y+40].replace("\n"," ")+"  =>  "+mut[max(0,x-40):x+len(new)+40].replace("\n"," "),
                 "status":"survived" if r.returncode==0 else ("timeout" if r.returncode==124 else "killed"),"by":name,"secs":round(time.time()-t0)}
            open(out,"a").write(json.dumps(rec)+"\n")
        open(p,'w').write(src)
        shutil.copystat(snap+"/theories/"+f,p)
    # restore compiled state
    subprocess.run("cp -a %s/theories/. %s/theories/"%(snap,work),shell=True)
