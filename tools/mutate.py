#!/usr/bin/env python3
"""Mutation experiment: mutate.py FILE.v 'old' 'new' [definition] [claim]
Copies /verif/rocq to /tmp/mut (outside /verif), replaces old by new once in theories/FILE.v, rebuilds with make -k
and prints the files/lemmas that no longer compile.  With definition+claim given, appends a line to seeded/LOG.jsonl."""
import sys,subprocess,re,json,os
f,old,new=sys.argv[1:4]
subprocess.run("rm -rf /tmp/mut && mkdir -p /tmp/mut && cp -a %s /tmp/mut/rocq" % os.environ.get("MUT_SRC","/verif/rocq"),shell=True,check=True)
p="/tmp/mut/rocq/theories/"+f
s=open(p).read()
assert s.count(old)==1,("occurrences",s.count(old))
open(p,"w").write(s.replace(old,new))
r=subprocess.run("cd /tmp/mut/rocq && coq_makefile -f _CoqProject -o Makefile >/dev/null && timeout 600 make -k -j4 2>&1",shell=True,capture_output=True,text=True)
out=r.stdout
fails=[]
for m in re.finditer(r'File "\./(theories/\S+\.v)", line (\d+)[^\n]*\n(?:(?!File)[^\n]*\n)*?Error',out):
    fn,ln=m.group(1),int(m.group(2))
    lines=open("/tmp/mut/rocq/"+fn).read().split("\n")[:ln]
    name="?"
    for l in reversed(lines):
        mm=re.match(r'\s*(?:Theorem|Lemma|Example|Corollary|Definition|Fixpoint|Fact)\s+(\w+)',l)
        if mm: name=mm.group(1);break
    fails.append(fn.split('/')[-1]+":"+name)
allv=[l.strip() for l in open("/tmp/mut/rocq/_CoqProject") if l.strip().endswith(".v")]
notbuilt=[]
for v in allv:
    vo="/tmp/mut/rocq/"+v+"o"
    if not os.path.exists(vo) or os.path.getmtime(vo)<os.path.getmtime(p): 
        # file not depending on the mutated one keeps its old .vo
        pass
# dependents that could not be built
chk=subprocess.run("cd /tmp/mut/rocq && make -k -n 2>/dev/null | grep -o 'theories/[A-Za-z0-9_]*\\.v' | sort -u",shell=True,capture_output=True,text=True).stdout.split()
notbuilt=[c.split('/')[-1] for c in chk]
print("rc",r.returncode); print("first failures:",fails); print("not built (failed or depend on a failed file):",notbuilt)
if r.returncode!=0 and not fails: print(out[-1500:])
if len(sys.argv)>=6:
    rec={"definition":f+":"+sys.argv[4],"edit":old+"  =>  "+new,"claim_broken":sys.argv[5],
         "theorems_failed":fails,"files_not_built":notbuilt,"theorems_tightened":sys.argv[6].split(",") if len(sys.argv)>6 else []}
    open("/verif/seeded/LOG.jsonl","a").write(json.dumps(rec)+"\n")
