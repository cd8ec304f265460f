#!/usr/bin/env python3
"""Try wrong programs.  usage: mutate.py <mutants.json> [ids...]
Each mutant: {"id","file","old","new","def","edit","claim"}.  Edits the model in a scratch copy, replaces every proof
that no longer compiles by Admitted, and reports the property theorems that failed or depend on a failed lemma."""
import json, os, re, shutil, subprocess, sys, time
SRC=os.environ.get('MUTSRC','/verif/rocq'); SCR=os.environ.get('MUTSCR','/tmp/mut')
HEAD=re.compile(r'^\s*(?:#\[[^\]]*\]\s*)?(Lemma|Theorem|Example|Corollary|Fact|Remark)\s+(\w+)')
def run(m, verbose=False):
    if os.path.exists(SCR): shutil.rmtree(SCR)
    shutil.copytree(SRC, SCR, copy_function=shutil.copy2)
    p=f"{SCR}/theories/{m['file']}"; s=open(p).read()
    n=s.count(m['old']); t0=time.time()
    if n!=1: return dict(error=f"pattern occurs {n} times")
    open(p,'w').write(s.replace(m['old'],m['new']))
    failed=[]
    for _ in range(80):
        r=subprocess.run('make -k -j4 2>&1',shell=True,cwd=SCR,capture_output=True,text=True)
        if r.returncode==0: break
        errs=re.findall(r'File "\./theories/(\w+\.v)", line (\d+), characters [\d-]+:\s*\n(Error.*)',r.stdout)
        if not errs: return dict(error=r.stdout[-2000:])
        done=set()
        for f,ln,msg in errs:
            if f in done: continue
            done.add(f)
            if f==m['file'] and not f.startswith('P') and not f.startswith('T'): return dict(error='model does not compile: '+r.stdout[-800:])
            q=f"{SCR}/theories/{f}"; L=open(q).read().split('\n'); i=int(ln)-1
            j=i
            while j>=0 and not HEAD.match(L[j]): j-=1
            # end of proof
            k=j
            while j>=0 and k<len(L)-1 and not re.search(r'\b(Qed|Defined)\.',L[k]): k+=1
            if j<0 or k<i: # error outside a lemma (statement of a definition or Print): drop the line
                failed.append(f"{f}:{ln}:{msg[:80]}"); L[i]='(* dropped *)'; open(q,'w').write('\n'.join(L)); continue
            name=HEAD.match(L[j]).group(2); failed.append(name)
            txt='\n'.join(L[j:k+1]); mm=re.search(r'\bProof\b',txt)
            if txt[:mm.start()].count('\n')+j>i or 'already failed' in msg: # statement broken
                new='(* statement broken *)'
                for a in range(j,k+1): L[a]=''
                L[j]=new
            else:
                new=txt[:mm.start()]+'Admitted.'
                rest=re.split(r'\b(?:Qed|Defined)\.',txt,1)[1] if False else txt[re.search(r'\b(?:Qed|Defined)\.',txt).end():]
                L[j:k+1]=(new+rest).split('\n')+['']*0
            open(q,'w').write('\n'.join(L))
    else: return dict(error='did not converge',failed=failed)
    # dependents
    bad=[n for n in failed if ':' not in n]
    hit=[n for n in bad if re.match(r'C\d\d\d?_',n)]
    if bad:
        for f in sorted(os.listdir(SCR+'/theories')):
            if f.startswith('T_') and f.endswith('.v') and os.path.getmtime(f'{SCR}/theories/{f}o')>=t0-1:
                src=open(f'{SCR}/theories/{f}').read()
                names=[n for n in re.findall(r'^\s*Theorem (\w+)',src,re.M) if n not in bad]
                open(SCR+'/Chk.v','w').write(f'From Verif Require {f[:-2]}.\n'+''.join(f'Print Assumptions {f[:-2]}.{n}.\n' for n in names))
                o=subprocess.run('coqc -Q theories Verif Chk.v',shell=True,cwd=SCR,capture_output=True,text=True).stdout
                blocks=re.split(r'^(?=Axioms:|Closed under)',o,flags=re.M)[1:]
                for nme,b in zip(names,blocks):
                    if any(re.search(r'(^|\.)%s\b'%re.escape(x),b,re.M) for x in bad) and nme not in hit: hit.append(nme)
    return dict(failed=failed,theorems=hit)
if __name__=='__main__':
    ms=json.load(open(sys.argv[1])); ids=sys.argv[2:]
    for m in ms:
        if ids and str(m['id']) not in ids: continue
        r=run(m); print(json.dumps(dict(id=m['id'],**r)),flush=True)
        if not r.get('error'):
            with open('/tmp/mutlog.jsonl','a') as f:
                f.write(json.dumps(dict(definition=m['def'],edit=m['edit'],claim=m['claim'],failed=[x for x in r['theorems'] if not x.endswith('_case')],first_failing_lemmas=r['failed'][:6],tightened=[]))+'\n')
