#!/usr/bin/env python3
"""mut.py FILE.v <<< JSON {definition, old, new, claim, expect?}: apply edit in scratch copy, admit failing lemmas, report which property theorems break; append to LOG if 'log' given."""
import sys, os, re, json, subprocess, shutil, fcntl
SRC='/verif/rocq/theories'; 
def order():
    out=subprocess.run(['coqdep','-Q','.','Verif','-sort']+[f for f in os.listdir('.') if f.endswith('.v')],capture_output=True,text=True).stdout.split()
    return [os.path.basename(f) for f in out]
def deps():
    d={}
    for l in subprocess.run(['coqdep','-Q','.','Verif']+[f for f in os.listdir('.') if f.endswith('.v')],capture_output=True,text=True).stdout.splitlines():
        if '.vo ' in l.split(':')[0]:
            t=[os.path.basename(x) for x in l.split(':')[0].split() if x.endswith('.vo')][0]
            d[t[:-1]]=[os.path.basename(x)[:-1] for x in l.split(':')[1].split() if x.endswith('.vo')]
    return d
def run(m, work):
    if os.path.exists(work): shutil.rmtree(work)
    shutil.copytree(SRC,work); os.chdir(work)
    f=m['file']; s=open(f).read()
    n=s.count(m['old'])
    if n!=1 and not m.get('multi'): return dict(error='old occurs %d times'%n)
    open(f,'w').write(s.replace(m['old'],m['new']))
    od=order(); dp=deps(); dirty={f}; admitted=[]; ass={}
    for g in od:
        if g in dirty or any(x in dirty for x in dp.get(g,[])):
            dirty.add(g)
            while True:
                T=m.get('timeout',300)
                r=subprocess.run('ulimit -v 6000000; timeout %d coqc -Q . Verif %s'%(T,g),shell=True,capture_output=True,text=True)
                if r.returncode==0: break
                mm=re.findall(r'File "\./?%s", line (\d+)'%re.escape(g), r.stderr)
                if not mm: # killed or timed out: find the sentence that did not finish
                    r=subprocess.run('ulimit -v 6000000; timeout %d stdbuf -oL coqc -time -Q . Verif %s'%(T,g),shell=True,capture_output=True,text=True)
                    if r.returncode==0: break
                    cs=re.findall(r'^Chars (\d+) - (\d+)',r.stdout,re.M)
                    if not cs: return dict(error='cannot parse: '+r.stderr[:500],admitted=admitted)
                    txt=open(g,'rb').read()[int(cs[-1][1]):].decode(); pre=open(g,'rb').read()[:int(cs[-1][1])].decode()
                    mm=[str(pre.count('\n')+1+txt[:len(txt)-len(txt.lstrip())].count('\n'))]
                L=int(mm[-1]); lines=open(g).read().split('\n')
                # enclosing statement
                k=L-1
                pat=re.compile(r'\s*(Lemma|Theorem|Corollary|Example|Fact|Remark|Proposition|Instance|Global Instance)\s+(\S+)')
                while k>=0 and not pat.match(lines[k]): k-=1
                if k<0: return dict(error='no enclosing lemma: '+r.stderr[:500],admitted=admitted)
                name=pat.match(lines[k]).group(2)
                txt='\n'.join(lines[k:]); p=re.search(r'\bProof\b[^.]*\.',txt)
                q=re.search(r'\b(Qed|Defined)\.',txt)
                if not p or p.start()>q.start(): return dict(error='stmt error in %s: %s'%(name,r.stderr[-400:]),admitted=admitted)
                if L-1-k < txt[:p.start()].count('\n') : return dict(error='stmt error in %s: %s'%(name,r.stderr[-400:]),admitted=admitted)
                txt=txt[:p.start()]+'Admitted.'+txt[q.end():]
                open(g,'w').write('\n'.join(lines[:k])+('\n' if k else '')+txt)
                admitted.append(g[:-2]+'.'+name)
            if 'Props' in g:
                out=r.stdout; names=re.findall(r'^Print Assumptions (\S+)\.',open(g).read(),re.M)
                blocks=re.split(r'^(?=Closed under the global context|Axioms:)',out,flags=re.M)
                blocks=[b for b in blocks if b.startswith(('Closed','Axioms:'))]
                for nme,b in zip(names,blocks): ass[nme]=b
    short=[a.split('.')[1] for a in admitted]
    broken=[n for n,b in ass.items() if any(re.search(r'(?<![\w\'])%s(?![\w\'])'%re.escape(a),b) for a in short)]
    broken+= [a for a in short if a in ass and a not in broken]
    return dict(broken=broken, admitted=admitted, checked=len(ass))
if __name__=='__main__':
    ms=json.load(open(sys.argv[1])); nolog='-n' in sys.argv
    SNAP='/tmp/mut/snap%d'%os.getpid(); os.makedirs(SNAP)
    for l in open('/verif/rocq/_CoqProject').read().split():
        if l.endswith('.v'):
            for e in ('','o','os','ok'):
                p=SRC+'/'+os.path.basename(l)+e
                if os.path.exists(p): shutil.copy2(p,SNAP)
    SRC=SNAP
    from concurrent.futures import ThreadPoolExecutor
    import multiprocessing as mp
    PID=os.getpid()
    def one(i):
        r=run(ms[i],'/tmp/mut/w%d_%d'%(PID,i)); shutil.rmtree('/tmp/mut/w%d_%d'%(PID,i),ignore_errors=True); return r
    with mp.Pool(3) as pool:
        rs=pool.map(one,range(len(ms)),chunksize=1)
    for m,r in zip(ms,rs):
        print(m['definition'],'|',m['edit'],'->',r.get('error') or r['broken'], '| admitted', r.get('admitted'))
        if not nolog and 'broken' in r:
            with open('/verif/seeded/LOG.jsonl','a') as fh:
                fh.write(json.dumps(dict(definition=m['file'][:-2]+'.'+m['definition'],edit=m['edit'],claim=m['claim'],failed=r['broken'],failed_lemmas=r['admitted'],tightened=m.get('tightened',[])))+'\n')
    subprocess.run('rm -rf /tmp/mut/w%d_* %s'%(os.getpid(),SNAP),shell=True)
