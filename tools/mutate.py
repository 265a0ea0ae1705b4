#!/usr/bin/env python3
"""Mutation tester for the theorems (run on a scratch copy, never on /verif).

usage: mutate.py MUTANTS.json OUT.jsonl [-jN]
Each mutant: {"id","file","old","new","edit","definition","claim"}.
For each: copy /verif/rocq to a scratch directory, apply the edit, rebuild; every proof
that breaks is replaced by Admitted and the build goes on, so that at the end
Print Assumptions tells for every theorem of MANIFEST.json whether it still holds
without one of the broken proofs."""
import json,os,re,subprocess,sys,shutil
SRC=os.environ.get('MUTSRC','/verif/rocq'); W=os.environ.get('MUTDIR','/tmp/mut/work')
muts=json.load(open(sys.argv[1])); out=sys.argv[2]; J=sys.argv[3] if len(sys.argv)>3 else '-j2'
man=json.load(open('/verif/MANIFEST.json'))
claims={}
for c in man['claims']:
    for t in c['theorems']: claims[t]=c['property']
where={}
for f in os.listdir(SRC+'/theories'):
    if f.endswith('.v'):
        for m in re.finditer(r'^(?:Theorem|Lemma|Example|Corollary)\s+(\w+)',open(f'{SRC}/theories/{f}').read(),re.M):
            where.setdefault(m.group(1),f[:-2])
done=set()
if os.path.exists(out):
    for l in open(out): done.add(json.loads(l)['id'])
START=re.compile(r'^\s*(?:Local |Global |#\[[a-z]+\] ?)*(?:Theorem|Lemma|Example|Corollary|Fact|Remark|Instance)\s+(\w+)',re.M)
def admit(path,line):
    s=open(path).read(); lines=s.split('\n')
    pos=sum(len(l)+1 for l in lines[:line])  # end of the error line
    last=None
    for m in START.finditer(s):
        if m.start()<pos: last=m
        else: break
    if not last: return None
    e=re.compile(r'\b(Qed|Defined|Admitted)\.').search(s,last.start())
    if not e or e.group(1)=='Admitted': return None
    p=re.compile(r'\bProof( using[^.]*)?\.').search(s,last.start())
    if not p or p.start()>e.start(): return None
    # keep line numbers
    body=s[p.start():e.end()]
    s=s[:p.start()]+'Admitted.'+'\n'*body.count('\n')+s[e.end():]
    open(path,'w').write(s); return last.group(1)
def run(cmd,t=3000):
    try:
        r=subprocess.run(cmd,shell=True,cwd=W,capture_output=True,text=True,timeout=t); return r.stdout+r.stderr
    except subprocess.TimeoutExpired as ex: return 'TIMEOUT'
for mu in muts:
    if mu['id'] in done: continue
    subprocess.run(f'rm -rf {W}; cp -a {SRC} {W}',shell=True,check=True)
    # the executable tests are left out: only theorems count
    cp=open(W+'/_CoqProject').read().split('\n')
    cp=[l for l in cp if not re.search(r"(Tests|Examples)\w*\.v",l)]
    open(W+'/_CoqProject','w').write('\n'.join(cp))
    p=f"{W}/theories/{mu['file']}"; s=open(p).read()
    if s.count(mu['old'])<1: print('NO MATCH',mu['id']); continue
    k=mu.get('nth',0)
    i=-1
    for _ in range(k+1): i=s.index(mu['old'],i+1)
    s=s[:i]+mu['new']+s[i+len(mu['old']):]
    open(p,'w').write(s)
    run('coq_makefile -f _CoqProject -o Makefile')
    broken=[]; note=''
    for it in range(40):
        o=run(f'timeout 2400 make -k {J} COQC="timeout 400 coqc" 2>&1')
        errs=set()
        L=o.split('\n')
        for n,l in enumerate(L):
            m=re.match(r'File "\./?(theories/\w+\.v)", line (\d+)',l)
            if m and any(x.startswith('Error') for x in L[n+1:n+3]):
                errs.add((m.group(1),int(m.group(2))))
        # a proof that does not end counts as broken: find the sentence it hangs in
        for f in set(re.findall(r'(theories/\w+)\.vo\] Error 124',o)):
            t=run(f'timeout 400 coqc -time -Q theories Verif {f}.v 2>&1')
            c=[int(x) for x in re.findall(r'^Chars \d+ - (\d+)',t,re.M)]
            b=open(f'{W}/{f}.v','rb').read()
            errs.add((f+'.v',b[:(c[-1] if c else 0)+2].count(b'\n')+1))
        if not errs:
            if 'Error' in o: note='build error: '+o[-400:]
            break
        prog=False
        for f,ln in errs:
            t=admit(f'{W}/{f}',ln)
            if t: broken.append(t); prog=True
            else: note+=f' stuck {f}:{ln}'
        if not prog: break
    # which claims' theorems survive
    mods=sorted({where[t] for t in claims if t in where})
    failed=[];surv=[];unk=[]
    for md in mods:
        ts=[t for t in claims if where.get(t)==md]
        if not os.path.exists(f'{W}/theories/{md}.vo') or os.path.getmtime(f'{W}/theories/{md}.vo')<os.path.getmtime(f'{W}/theories/{md}.v'):
            unk+=ts; continue
        src=f'From Verif Require {md}.\n'+'\n'.join(f'Goal True. idtac "@@{t}". exact I. Qed.\nPrint Assumptions {md}.{t}.' for t in ts)
        open('/tmp/mut/Chk%d.v'%os.getpid(),'w').write(src)
        o=run(f'coqc -Q theories Verif /tmp/mut/Chk{os.getpid()}.v')
        parts=o.split('@@')[1:]
        for q in parts:
            t=q.split('\n')[0].strip()
            names=re.findall(r'^(?:Verif\.)?(?:[\w.]*\.)?(\w+)\s*:',q,re.M)
            (failed if set(names)&set(broken) else surv).append(t)
        if len(parts)!=len(ts): unk+=[t for t in ts if t not in failed and t not in surv]
    rec={**mu,'broken_proofs':broken,'failed':sorted(failed),'failed_claims':sorted({claims[t] for t in failed}),'unbuilt':unk,'surviving_claim_theorems':sorted(t for t in surv if claims[t] in mu['claim']),'note':note}
    open(out,'a').write(json.dumps(rec)+'\n')
    print(mu['id'],'claim',mu['claim'],'failed claims',rec['failed_claims'],'surv',rec['surviving_claim_theorems'],note,flush=True)
