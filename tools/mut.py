#!/usr/bin/env python3
"""Seeded-bug runner.  usage: mut.py batch.json
batch: [{"file":"X.v","def":"name","old":"..","new":"..","claim":"..","targets":["P_X"],"tightened":[]}]
Copies the (already built) development to a scratch dir, edits the model, rebuilds the targets and logs which theorem stops compiling."""
import json,sys,subprocess,shutil,os,re
from concurrent.futures import ThreadPoolExecutor
SRC=os.environ.get("SRC","/verif/rocq")
def enclosing(path,line):
    name=None
    for n,l in enumerate(open(path),1):
        if n>line: break
        m=re.match(r"\s*(?:Theorem|Lemma|Example|Definition|Corollary|Fact|Let|Remark|Fixpoint)\s+(\w+)",l)
        if m: name=m.group(1)
    return name
def run(args):
    k,m=args
    d=f"/tmp/mut_{os.getpid()}_{k}"
    shutil.rmtree(d,ignore_errors=True)
    subprocess.run(["cp","-a",SRC,d],check=True)
    p=f"{d}/theories/{m['file']}"
    s=open(p).read()
    if s.count(m["old"])<1:
        shutil.rmtree(d,ignore_errors=True); return m,None,"pattern not found"
    s=s.replace(m["old"],m["new"],1)
    open(p,"w").write(s)
    r=subprocess.run(["make","-k"]+[f"theories/{t}.vo" for t in m["targets"]],cwd=d,capture_output=True,text=True,timeout=3000)
    out=r.stdout+r.stderr
    fails=[]
    for f,l in re.findall(r'File "\./theories/(\w+\.v)", line (\d+), characters [\d-]+:\nError',out):
        fails.append(f"{f[:-2]}.{enclosing(f'{d}/theories/{f}',int(l))}")
    blocked=[]
    for t in m["targets"]:
        if not os.path.exists(f"{d}/theories/{t}.vo") or f"theories/{t}.vo] Error" in out or re.search(rf"not remade",out): pass
    for t in m["targets"]:
        vo=f"{d}/theories/{t}.vo"
        if not os.path.exists(vo) or os.path.getmtime(vo)<os.path.getmtime(p): blocked.append(t)
    shutil.rmtree(d,ignore_errors=True)
    return m,fails,blocked
def main():
    B=json.load(open(sys.argv[1]))
    with ThreadPoolExecutor(int(os.environ.get("W","4"))) as ex:
        for m,fails,blocked in ex.map(run,enumerate(B)):
            if fails is None: print("!!",m["file"],m["old"][:50],blocked); continue
            print(("KILLED " if fails else "SURVIVED "),m["file"],m.get("def"),"|",m["old"][:40],"->",m["new"][:40],"|",fails,blocked,flush=True)
            if fails or m.get("log_survivor"):
                with open("/verif/seeded/LOG.jsonl","a") as f:
                    f.write(json.dumps({"definition":f"{m['file']}:{m.get('def')}","edit":f"{m['old']} => {m['new']}","claim_broken":m["claim"],"theorems_failed":fails,"blocked":blocked,"theorems_tightened":m.get("tightened",[])})+"\n")
main()
