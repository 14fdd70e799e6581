#!/usr/bin/env python3
"""seed.py for the claims C89-C92 only: builds just the files that Properties49-52 need
and checks the proofs of CmpProof.v and Properties49-52.  Arguments: names of edits."""
import json,os,re,shutil,subprocess,sys
sys.path.insert(0,'/verif/tools')
src='/verif/rocq/theories/'
D='/tmp/seed4'; os.makedirs(D,exist_ok=True)
import types
seed=types.ModuleType('seed'); t=open('/verif/tools/seed.py').read().rstrip()
assert t.endswith('main()'); exec(compile(t[:-len('main()')].rstrip().removesuffix('if __name__ == "__main__":'),'seed','exec'),seed.__dict__)
muts=seed.mutants()
targets=['ExRational','SpecOrder','CmpProof','ExCmp','Properties49','Properties50','Properties51','Properties52']
deps=seed.deps('/verif/rocq')
need=seed.below(deps,['theories/%s.v'%t for t in targets])
order=[f for f in seed.files('/verif/rocq') if f in need]
# topological
done=[];rem=list(order)
while rem:
    for f in rem:
        if all(g in done for g in deps.get(f,()) if g.startswith('theories/')):
            done.append(f); rem.remove(f); break
order=done
print(order)
lem=re.compile(r"^\s*(?:Local )?(Lemma|Theorem|Example|Let)\s+([A-Za-z0-9_']+)",re.M)
res={}
rf=D+'/results.json'
if os.path.exists(rf): res=json.load(open(rf))
full=['theories/%s.v'%t for t in ['CmpProof','Properties49','Properties50','Properties51','Properties52']]
for n in sys.argv[1:]:
    m=muts[n]; W=D+'/work'; shutil.rmtree(W,ignore_errors=True); os.makedirs(W+'/theories')
    for f in order: shutil.copy('/verif/rocq/'+f,W+'/'+f)
    p=W+'/theories/'+m['file']; s=open(p).read(); assert s.count(m['old'])==1,(n,s.count(m['old'])); open(p,'w').write(s.replace(m['old'],m['new']))
    fe=set(); edited='theories/'+m['file']
    cone=seed.cone({f:deps[f] for f in order},edited)
    failed=[];err=[]
    for f in order:
        if f not in cone:
            shutil.copy('/verif/rocq/'+f+'o',W+'/'+f+'o'); continue
        if f not in full:
            # proofs skipped; a .vos serves as the interface
            o=subprocess.run('coqc -vos -Q theories Verif '+f,shell=True,cwd=W,capture_output=True,text=True)
            if o.returncode: err.append(f+': '+(o.stderr)[-300:]); break
            continue
        dropped=0
        while True:
            subprocess.run('coqc -vos -Q theories Verif '+f,shell=True,cwd=W,capture_output=True,text=True)
            o=subprocess.run('timeout 300 coqc -vok -Q theories Verif '+f,shell=True,cwd=W,capture_output=True,text=True)
            if o.returncode==0: break
            mm=re.search(r'line (\d+), characters (\d+)',o.stderr)
            if not mm: err.append(f+': '+o.stderr[-300:]); break
            s=open(W+'/'+f).read(); pos=sum(len(x)+1 for x in s.split('\n')[:int(mm.group(1))-1])+int(mm.group(2))
            hs=[h for h in lem.finditer(s) if h.start()<=pos]
            h=hs[-1]; name=h.group(2)
            ps=s.find('Proof',h.end()); qe=s.find('Qed.',ps)
            if not(ps<=pos<=qe+4) or dropped>40: err.append(f+': '+o.stderr[-400:]); break
            failed.append(os.path.basename(f)[:-2]+'.'+name); dropped+=1
            s=s[:ps]+'Proof. Admitted.'+' '*0+s[qe+4:]
            open(W+'/'+f,'w').write(s)
        if err: break
    # theorems resting on failed lemmas, by name
    bad={x.split('.')[1] for x in failed}
    txt={}
    for f in full:
        s=open('/verif/rocq/'+f).read(); hs=list(lem.finditer(s))
        for k,h in enumerate(hs): txt.setdefault(h.group(2),s[h.end():hs[k+1].start() if k+1<len(hs) else len(s)])
    while True:
        nb=bad|{a for a,t in txt.items() if any(re.search(r"(?<![A-Za-z0-9_'])%s(?![A-Za-z0-9_'])"%re.escape(b),t) for b in bad)}
        if nb==bad: break
        bad=nb
    th=sorted(t for t in bad if re.match(r'C\d\d_',t) and t in seed.manifest())
    res[n]=dict(failed_lemmas=failed,failed_theorems=th,own=[],errors=err,seconds=0)
    json.dump(res,open(rf,'w'))
    print(n, 'KILLED' if any(t.startswith(m['claim']) for t in th) else 'SURVIVED', failed, err, flush=True)
