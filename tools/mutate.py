#!/usr/bin/env python3
"""mutate.py SPEC.json: seed each wrong program of SPEC into a scratch copy of the
model (outside /verif), rebuild, and find the property theorems that no longer
hold. A proof that breaks is replaced by Admitted in the scratch copy so that every
theorem depending on it is found through Print Assumptions.
SPEC: list of {"file","definition","old","new","edit","claim","expect":[ids]}."""
import sys,json,os,re,subprocess,shutil,glob
root='/verif'; scratch='/tmp/mut/rocq'
def sh(c,t=1500):
    try: return subprocess.run(c,shell=True,capture_output=True,text=True,timeout=t)
    except subprocess.TimeoutExpired as e:
        class R: pass
        r=R(); r.stdout=''; r.stderr='TIMEOUT'; r.returncode=124; return r
if not os.path.exists(scratch) or '--fresh' in sys.argv:
    shutil.rmtree(scratch,ignore_errors=True); os.makedirs(scratch)
os.makedirs(scratch+'/theories',exist_ok=True)
src='/tmp/mut/src'; shutil.rmtree(src,ignore_errors=True); os.makedirs(src)
sh(f'cd {root} && git archive HEAD rocq | tar x -C {src}')   # the last commit, not the working tree
shutil.copy(src+'/rocq/_CoqProject',scratch)
for x in glob.glob(src+'/rocq/theories/*.v'):
    y=scratch+'/theories/'+os.path.basename(x)
    if not os.path.exists(y) or open(x).read()!=open(y).read(): shutil.copy(x,y)
r=sh(f'cd {scratch} && coq_makefile -f _CoqProject -o Makefile && make -j4 2>&1 | tail -3')
print('base build:',r.stdout[-200:])
START=re.compile(r'^\s*(?:Local |Global |#\[.*\]\s*)*(?:Lemma|Theorem|Example|Corollary|Fact|Remark|Instance)\s+(\w+)',re.M)
def admit(path,line):
    s=open(path).read(); lines=s.split('\n'); pos=sum(len(l)+1 for l in lines[:line-1])
    ms=[m for m in START.finditer(s) if m.start()<=pos+len(lines[line-1])]
    if not ms: return None
    m=ms[-1]; 
    pq=re.compile(r'\bProof\b.*?\b(?:Qed|Defined)\.',re.S).search(s,m.start())
    if not pq or pos>pq.end(): return None
    if pos+len(lines[line-1])<pq.start(): return None
    open(path,'w').write(s[:pq.start()]+'Admitted.'+'\n'*s[pq.start():pq.end()].count('\n')+s[pq.end():])
    return m.group(1)
props=[]
listed=open(f'{scratch}/_CoqProject').read()
for f in sorted(glob.glob(f'{scratch}/theories/*Props*.v')):
    if 'theories/'+os.path.basename(f) not in listed: continue
    mod=os.path.basename(f)[:-2]
    props+= [(mod,x) for x in re.findall(r'^\s*Theorem\s+(C\d+_\w+)',open(f).read(),re.M)]
def run(mu):
    f=f'{scratch}/theories/{mu["file"]}'
    orig={}
    def save(p):
        if p not in orig: orig[p]=open(p).read()
    save(f); s=open(f).read()
    if s.count(mu['old'])!=1: print('!! pattern count',s.count(mu['old']),mu['definition']); return None
    open(f,'w').write(s.replace(mu['old'],mu['new']))
    adm=[]; bad=None; t0=os.path.getmtime(f)
    for it in range(80):
        r=sh(f'cd {scratch} && timeout 1200 make -k -j4 2>&1')
        errs=sorted(set(re.findall(r'File "\./([^"]+)", line (\d+)[^\n]*\nError',r.stdout)))
        if not errs:
            if 'Error' in r.stdout: bad=r.stdout[-500:]
            break
        seen=set(); n0=len(adm)
        for p,l in errs:
            if p in seen: continue
            seen.add(p); pp=f'{scratch}/{p}'; save(pp); nm=admit(pp,int(l))
            if nm: adm.append(nm)
            else: bad=f'{p}:{l} not in a proof'; 
        if len(adm)==n0: break
    failed=[]
    if bad is None:
        # only modules rebuilt for this mutation can have changed
        pr=[(m,x) for m,x in props if os.path.getmtime(f'{scratch}/theories/{m}.vo')>=t0]
        mods=sorted(set(m for m,_ in pr))
        q='From Verif Require '+' '.join(mods)+'.\n'+''.join(f'Print Assumptions Verif.{m}.{x}.\n' for m,x in pr)
        open('/tmp/mut/q.v','w').write(q)
        o=sh(f'cd /tmp/mut && coqc -Q {scratch}/theories Verif q.v').stdout
        # outputs in order: either "Closed under..." or "Axioms:\n..."
        parts=re.split(r'(?=^Closed under the global context|^Axioms:)',o,flags=re.M)
        parts=[p for p in parts if p.strip()]
        if len(parts)!=len(pr): bad=f'assumption output {len(parts)} vs {len(pr)}'
        else: failed=[x for (m,x),p in zip(pr,parts) if p.startswith('Axioms')]
    for p,t in orig.items(): open(p,'w').write(t)
    sh(f'cd {scratch} && make -j4 2>&1 | tail -3')
    return adm,failed,bad
if __name__=='__main__':
    if not all(os.path.exists(f'{scratch}/theories/{m}.vo') for m,_ in props): print('base build incomplete'); sys.exit(1)
    spec=json.load(open(sys.argv[1]))
    for mu in spec:
        res=run(mu)
        if res is None: continue
        adm,failed,bad=res
        hit=[e for e in mu.get('expect',[]) if any(x.startswith(e+'_') for x in failed)]
        rec={"definition":mu['definition'],"file":mu['file'],"edit":mu['edit'],"claim_broken":mu['claim'],"theorems_failed":failed,"first_broken_proofs":adm[:6],"theorems_tightened":mu.get('tightened',[])}
        if bad: rec['build_note']=bad
        ok = bool(hit) if mu.get('expect') else bool(failed)
        print(('KILLED ' if ok else 'SURVIVED ')+mu['definition'],'|',mu['edit'],'| failed',failed,'| admitted',adm[:5],'| note',bad,flush=True)
        if '--dry' not in sys.argv:
            with open(root+'/seeded/LOG.jsonl','a') as g: g.write(json.dumps(rec)+'\n')
