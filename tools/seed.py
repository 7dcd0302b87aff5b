#!/usr/bin/env python3
"""Seeded-bug experiments.  usage: seed.py experiments.json [tag]  (appends to seeded/LOG.jsonl; the tag names the scratch
copies, so that two runs may go on at once)

Each experiment: {"file": "Dmi/Model.v", "old": "...", "new": "...", "definition": "...",
"edit": "...", "claim": "..."}.  Works in a scratch copy /tmp/seed.  Every proof that breaks is
replaced by Admitted there and the build continues, so that the Print Assumptions output of the
Props files tells exactly which theorems no longer hold.  An Example that breaks is recorded too."""
import json,os,re,shutil,subprocess,sys,time
TAG=sys.argv[2] if len(sys.argv)>2 else ''
BASE='/tmp/seedbase'+TAG; SRC=BASE+'/rocq'; W='/tmp/seed'+TAG
def prepare():
    head=subprocess.run('git -C /verif rev-parse HEAD',shell=True,capture_output=True,text=True).stdout.strip()
    if os.path.exists(BASE+'/HEAD') and open(BASE+'/HEAD').read()==head: return
    os.makedirs(BASE,exist_ok=True)
    subprocess.run(f'git -C /verif archive HEAD rocq | tar -x -C {BASE} && cd {SRC} && coq_makefile -f _CoqProject -o Makefile && make -j4 >/dev/null',shell=True,check=True)
    open(BASE+'/HEAD','w').write(head)
def run(cmd): return subprocess.run(cmd,shell=True,cwd=W,capture_output=True,text=True)
def admit(path,line):
    s=open(path).read().split('\n')
    # enclosing statement
    i=line-1
    while i>=0 and not re.match(r'\s*(Local |Global )?(Lemma|Theorem|Example|Corollary|Fact|Instance|Remark|Proposition)\b',s[i]): i-=1
    if i<0: return None
    m=re.match(r'\s*(?:Local |Global )?(\w+)\s+([\w\']+)',s[i]); kind,name=m.group(1),m.group(2)
    j=i
    while j<len(s) and not re.search(r'\b(Qed|Defined|Admitted)\.',s[j]): j+=1
    if j<line-1: return None
    # statement end = line containing Proof
    k=i
    while k<=j and not re.search(r'\bProof\b',s[k]): k+=1
    if k>j: return None
    head=s[k][:re.search(r'\bProof\b',s[k]).start()]
    u=re.search(r'\bProof using[^.]*\.',s[k])  # so that the lemma keeps its section variables
    s[k:j+1]=[head+(u.group(0)+' ' if u else '')+'Admitted.']
    open(path,'w').write('\n'.join(s))
    return kind,name
def experiment(e):
    if not os.path.isdir(W): shutil.copytree(SRC,W)
    else: run(f"rsync -a --delete {SRC}/ {W}/") if shutil.which('rsync') else (shutil.rmtree(W),shutil.copytree(SRC,W))
    p=f"{W}/theories/{e['file']}"; s=open(p).read()
    n=s.count(e['old'])
    if n<1: return {'error':'old text not found: '+e['old']}
    if n>1 and not e.get('nth'): return {'error':f'old text found {n} times'}
    if e.get('nth'):
        idx=-1
        for _ in range(e['nth']): idx=s.index(e['old'],idx+1)
        s=s[:idx]+e['new']+s[idx+len(e['old']):]
    else: s=s.replace(e['old'],e['new'])
    open(p,'w').write(s)
    broken=[]; t0=time.time()-1
    for _ in range(80):
        r=run('timeout 1500 make -k -j3 2>&1'); out=r.stdout
        if r.returncode==0: break
        ms=re.findall(r'File "\./theories/([^"]+)", line (\d+)[^\n]*\nError',out)
        if not ms: return {'error':out[-500:]}
        for f,l in ms:
            a=admit(f"{W}/theories/{f}",int(l))
            if a is None: return {'error':'cannot admit: '+out[-800:], 'broken':broken}
            broken.append((f,)+a)
    else: return {'error':'too many rounds'}
    failed=[]; demos=[b[2] for b in broken if b[1]=='Example']
    names={b[2] for b in broken}
    # theorems resting on a broken lemma
    for root,_,fs in os.walk(W+'/theories'):
        for f in fs:
            if f.endswith('.v') and os.path.relpath(root+'/'+f,W) in open(W+'/_CoqProject').read() and os.path.getmtime((root+'/'+f)+'o')>=t0 and 'Print Assumptions' in open(root+'/'+f).read():  # only what was rebuilt
                src=open(root+'/'+f).read()
                mod='Verif.'+os.path.relpath(root+'/'+f,W+'/theories')[:-2].replace('/','.')
                ths=re.findall(r'Print Assumptions (\w+)\.',src)
                hdr=''.join(re.findall(r'From Verif Require Import [^\n]*?(?:\n[^\n]*?)*?\.\n',src))
                q=hdr+f"Require Import {mod}.\n"+''.join(f'Print Assumptions {t}.\n' for t in ths)
                open('/tmp/seed_q'+TAG+'.v','w').write(q)
                r=run(f'coqc -Q theories Verif /tmp/seed_q{TAG}.v -o /tmp/seed_q{TAG}.vo 2>&1')
                parts=re.split(r'(?m)^(?=Closed under|Axioms:)',r.stdout)
                parts=[x for x in parts if x.startswith(('Closed','Axioms'))]
                assert len(parts)==len(ths),(mod,r.stdout)
                for t,x in zip(ths,parts):
                    if x.startswith('Axioms'): failed.append(t)
    return {'failed':sorted(failed),'demos':demos,'lemmas':[b[2] for b in broken if b[1]!='Example' and b[2] not in failed]}
if __name__=='__main__':
    prepare()
    for e in json.load(open(sys.argv[1])):
        r=experiment(e)
        rec={'file':e['file'],'definition':e['definition'],'edit':e['edit'],'claim_broken':e['claim'],
             'theorems_failed':r.get('failed',[]),'examples_failed':r.get('demos',[]),'lemmas_failed_first':r.get('lemmas',[])[:4],
             'theorems_tightened':e.get('tightened',[])}
        if 'error' in r: print('ERROR',e['definition'],e['edit'],r); continue
        print(('OK  ' if r['failed'] else 'WEAK'),e['definition'],'|',e['edit'],'->',r['failed'],r['demos'])
        if r['failed'] or e.get('log_anyway'):
            open('/verif/seeded/LOG.jsonl','a').write(json.dumps(rec)+'\n')
