#!/usr/bin/env python3
"""Seeded-bug testing. Reads JSON lines {"file","old","new","claim","edit"} on stdin (or a file argument), applies each edit to a
scratch copy of rocq/theories, recompiles the files that depend on it, replacing every proof that breaks by Admitted, and reports
which theorems broke directly or rest on a broken lemma. With --log appends the result to seeded/LOG.jsonl."""
import json, os, re, subprocess, sys, shutil
ROOT='/verif'; SRC=os.environ.get('SEED_SRC',ROOT); SC=os.environ.get('SEED_SCRATCH','/tmp/seed')
def sh(cmd,**k): return subprocess.run(cmd,shell=True,capture_output=True,text=True,**k)
def setup():
    os.makedirs(SC,exist_ok=True)
    sh(f'rsync -a --delete {SRC}/rocq/ {SC}/rocq/ || (rm -rf {SC}/rocq; cp -a {SRC}/rocq {SC}/rocq)')
def deps():
    out=sh('coqdep -Q theories Verif $(find theories -name "*.v")',cwd=f'{SC}/rocq').stdout.replace('\\\n',' ')
    d={}
    for l in out.splitlines():
        m=re.match(r'(\S+)\.vo\S*.*?: (.*)',l)
        if m:
            d[m.group(1)+'.v']=[x[:-3]+'.v' for x in m.group(2).split() if x.endswith('.vo') and x.startswith('theories')]
    return d
START=re.compile(r'^\s*(?:#\[[^\]]*\]\s*)?(?:Local\s+|Global\s+)?(Theorem|Lemma|Example|Corollary|Fact|Remark|Instance|Proposition|Definition|Fixpoint)\s+(\w+)',re.M)
def compile_file(f,timeout=420):
    """returns (ok, broken:list, assumptions:dict, msg)"""
    path=f'{SC}/rocq/{f}'; broken=[]; msgs=[]
    for _ in range(80):
        try: r=sh(f'timeout {timeout} coqc -Q theories Verif -w -all {f}',cwd=f'{SC}/rocq')
        except Exception as e: return False,broken,{},str(e)
        if r.returncode==0:
            src=open(path).read()
            names=re.findall(r'^\s*Print Assumptions (\w+)\.',src,re.M)
            parts=re.findall(r'Closed under the global context|Axioms:\n(?:.+\n?)*?(?=Closed under|Axioms:|\Z)',r.stdout)
            return True,broken,dict(zip(names,parts)),msgs
        m=re.search(r'line (\d+), characters',r.stderr+r.stdout)
        if not m: return False,broken,{},'no location: '+(r.stderr[-300:] or 'timeout')
        ln=int(m.group(1)); src=open(path).read()
        off=sum(len(x)+1 for x in src.split('\n')[:ln-1])+ (int(re.search(r'characters (\d+)',r.stderr+r.stdout).group(1)))
        c=[m2 for m2 in START.finditer(src) if m2.start()<=off]
        if not c: return False,broken,{},r.stderr[-300:]
        st=c[-1]; 
        pf=re.compile(r'\bProof\b[^.]*\.').search(src,st.end())
        q=re.compile(r'\b(Qed|Defined)\.').search(src,st.end())
        if not pf or not q or off<pf.start() or st.group(1) in('Definition','Fixpoint') and q.start()<off:
            return False,broken,{},f'statement error near line {ln}: '+r.stderr[-300:]
        broken.append(st.group(2)); msgs.append((st.group(2),(r.stderr+r.stdout)[-250:]))
        src=src[:pf.start()]+'Proof. Admitted.'+src[q.end():]
        open(path,'w').write(src)
    return False,broken,{},'too many'
def run(seed,D):
    f='theories/'+seed['file']; path=f'{SC}/rocq/{f}'
    orig=open(path).read()
    n=orig.count(seed['old'])
    if n!=1 and not seed.get('all'):
        return {'error':f'old occurs {n} times'}
    open(path,'w').write(orig.replace(seed['old'],seed['new']))
    # affected files in dependency order
    aff=[]; 
    def dependents(x):
        return [k for k,v in D.items() if x in v]
    order=[]; seen=set()
    def visit(x):
        if x in seen: return
        seen.add(x)
        for y in dependents(x): visit(y)
        order.append(x)
    visit(f); order.reverse()
    touched={f:orig}; brokenall=[]; thms=[]; notes=[]; dead=set()
    for x in order:
        if any(d in dead for d in D.get(x,[])): dead.add(x); continue
        p=f'{SC}/rocq/{x}'
        if x not in touched: touched[x]=open(p).read()
        ok,b,ass,msg=compile_file(x)
        brokenall+=[(os.path.dirname(x)[9:]+'/'+os.path.basename(x)[:-2]+'.'+i) for i in b]
        if not ok: dead.add(x); notes.append(f'{x}: {msg}')
        for t,a in ass.items():
            if not a.startswith('Closed'): thms.append(t)
        thms+= [i for i in b if re.match(r'C\d\d',i) and i not in thms]
        if seed.get('verbose') : notes+= [str(m) for m in msg] if isinstance(msg,list) else []
    # theorems in dead files
    deadthms=[]
    for x in dead:
        deadthms+=re.findall(r'^\s*Theorem\s+(C\d+_\w+)',touched.get(x) or open(f'{SC}/rocq/{x}').read(),re.M)
    for k,v in touched.items(): open(f'{SC}/rocq/{k}','w').write(v)
    # restore .vo files
    for x in order:
        for ext in('.vo','.vok','.vos','.glob'):
            s=f'{SRC}/rocq/{x[:-2]}{ext}'
            if os.path.exists(s): shutil.copy2(s,f'{SC}/rocq/{x[:-2]}{ext}')
        shutil.copy2(f'{SRC}/rocq/{x}',f'{SC}/rocq/{x}')
    return {'broken_proofs':brokenall,'failed':sorted(set(thms)),'not_compiled':sorted(set(deadthms)),'notes':notes}
if __name__=='__main__':
    log='--log' in sys.argv; args=[a for a in sys.argv[1:] if not a.startswith('--')]
    setup(); D=deps()
    src=open(args[0]) if args else sys.stdin
    for l in src:
        l=l.strip()
        if not l or l.startswith('#'): continue
        s=json.loads(l); r=run(s,D)
        print(s['file'],'|',s.get('edit') or s['new'][:60],'|',s.get('claim'))
        if 'error' in r: print('   ERROR',r['error']); continue
        print('   broken:',', '.join(r['broken_proofs'])); print('   failed:',', '.join(r['failed']), '| not compiled:',len(r['not_compiled']))
        for n in r['notes']: print('   note:',n[:400])
        surv= not r['failed'] and not r['not_compiled']
        if surv: print('   *** SURVIVED')
        sys.stdout.flush()
        if log:
            json.dump({'definition':s['file'][:-2]+': '+s.get('def',''),'edit':s.get('edit') or f"{s['old']} -> {s['new']}",'claim_broken':s.get('claim'),
                       'theorems_failed':r['failed']+([f"(not compiled: {len(r['not_compiled'])} theorems)"] if r['not_compiled'] else []),
                       'broken_proofs':r['broken_proofs'],'theorems_tightened':s.get('tightened',[]),'survived':surv,'note':s.get('note','')},open(ROOT+'/seeded/LOG.jsonl','a'))
            open(ROOT+'/seeded/LOG.jsonl','a').write('\n')
