#!/usr/bin/env python3
"""Writes rocq/theories/Shipped.v: the parameter sets of the repository (moduli read from the Go sources), with primality certificates and NTT roots."""
import re,math,random
random.seed(1)
def isp(n):
    if n<2: return False
    for p in (2,3,5,7,11,13,17,19,23,29,31,37):
        if n%p==0: return n==p
    d=n-1;s=0
    while d%2==0: d//=2;s+=1
    for a in (2,3,5,7,11,13,17,19,23,29,31,37):
        x=pow(a,d,n)
        if x in(1,n-1): continue
        for _ in range(s-1):
            x=x*x%n
            if x==n-1: break
        else: return False
    return True
def fac(n):
    r={}
    for p in range(2,100000):
        while n%p==0: r[p]=r.get(p,0)+1; n//=p
        if p*p>n: break
    st=[n] if n>1 else []
    while st:
        m=st.pop()
        if isp(m): r[m]=r.get(m,0)+1; continue
        while 1:
            c=random.randrange(1,m);x=y=random.randrange(m);d=1
            while d==1:
                x=(x*x+c)%m;y=(y*y+c)%m;y=(y*y+c)%m;d=math.gcd(abs(x-y),m)
            if d!=m: break
        st+=[d,m//d]
    return r
def grab(f,name):
    s=open('/repo/'+f).read(); i=s.index(name+" = "); j=s.index("Sigma",i); t=re.sub(r'//.*','',s[i:j])
    return {k:[int(x,16) for x in re.findall('0x[0-9a-f]+',m)] for k,m in re.findall(r'(\w+):\s*\[\]uint64\{(.*?)\}',t,re.S)}
def lines(f,name):
    s=open('/repo/'+f).read(); i=s.index(name+" = "); j=s.index("Sigma",i); return s[:i].count('\n')+1, s[:j].count('\n')+1
SETS=[('bfv15','mkbfv/mkbfv_test.go','PN15QP880',15,65537),('bfv14','mkbfv/mkbfv_test.go','PN14QP439',14,65537),
      ('ckks15','mkckks/mkckks_test.go','PN15QP880',15,None),('ckks14','mkckks/mkckks_test.go','PN14QP439',14,None),('cnn14','cnn/cnn_test.go','PN14QP433',14,None)]
out=[]; done={}
def prime(p):
    """name of a lemma prime p"""
    if p in done: return done[p]
    n='pr_%d'%p; done[p]=n
    if p<5000:
        out.append('Lemma %s : prime %d. Proof. apply is_prime_ok. vm_compute. reflexivity. Qed.'%(n,p)); return n
    F=fac(p-1); W=[]; f=1
    for r,e in sorted(F.items()):
        if (f+1)**2>p: break
        W.append((r,e)); f*=r**e
    names=[prime(r) for r,_ in W]; C=[]
    for r,e in W:
        a=2
        while not(pow(a,p-1,p)==1 and math.gcd(pow(a,(p-1)//r,p)-1,p)==1): a+=1
        C.append('Wit %d %d %d'%(r,e,a))
    out.append('Lemma %s : prime %d.\nProof. apply (pocklington _ [%s]); [%sconstructor|vm_compute; reflexivity]. Qed.'%(n,p,'; '.join(C),''.join('constructor; [exact %s|]; '%x for x in names)))
    return n
def psi(q,logn):
    a=2
    while 1:
        x=pow(a,(q-1)>>(logn+1),q)
        if pow(x,1<<logn,q)==q-1: return x
        a+=1
body=[]; mods={}
def modu(q,logn):
    k=(q,logn)
    if k in mods: return mods[k]
    n='m%d_%x'%(logn,q); mods[k]=n; x=psi(q,logn); pr=prime(q)
    body.append('Definition %s : modulus := Mod %d %d.\nLemma %s_ok : okmod (N := N%d) %s.\nProof. apply shipped_mod%d; [exact %s|reflexivity|vm_compute; reflexivity]. Qed.'%(n,q,x,n,logn,n,logn,pr))
    return n
sets=[]
for nm,f,g,logn,t in SETS:
    S=grab(f,g); a,b=lines(f,g); c='(** %s:%d-%d %s *)'%(f,a,b,g)
    L={k:[modu(q,logn) for q in v] for k,v in S.items()}
    ls=lambda k:'['+'; '.join(L[k])+']'
    fo=lambda ks:'repeat (apply Forall_cons; [first [%s]|]); apply Forall_nil'%' | '.join('exact %s_ok'%x for k in ks for x in L[k])
    if t:
        sets.append('%s\nDefinition %s : bparams := BP %s\n  %s\n  %s %d.'%(c,nm,ls('Q'),ls('QMul'),ls('P'),t))
        sets.append('Lemma %s_okm : Forall (okmod (N := N%d)) (Qm (ppR %s) ++ Pm (ppR %s)).\nProof. cbn [Qm Pm ppR %s bQ bM bP app]. %s. Qed.'%(nm,logn,nm,nm,nm,fo(['Q','QMul','P'])))
    else:
        sets.append('%s\nDefinition %s : rparams := RP %s\n  %s 2.'%(c,nm,ls('Q'),ls('P')))
        sets.append('Lemma %s_okm : Forall (okmod (N := N%d)) (Qm %s ++ Pm %s).\nProof. cbn [Qm Pm %s app]. %s. Qed.'%(nm,logn,nm,nm,nm,fo(['Q','P'])))
H='''(** Generated by tools/gen_params.py: the parameter sets of the repository, read from its sources; every modulus with a primality certificate and a 2N-th root of unity. *)
From Verif Require Import Base NumTheory Pock Negacyclic Ntt Word BasisExt BasisExtProofs Rows RlweModel BfvModel BfvMulModel.
From Coq Require Import Znumtheory.
Open Scope Z_scope.

Definition N15 : nat := 2 ^ 15.
Definition N14 : nat := 2 ^ 14.
Lemma N15_pow : N15 = (2 ^ 15)%nat. Proof. reflexivity. Qed.
Lemma N14_pow : N14 = (2 ^ 14)%nat. Proof. reflexivity. Qed.
Lemma N15_Z : Z.of_nat N15 = 32768. Proof. unfold N15. rewrite Nat2Z.inj_pow. reflexivity. Qed.
Lemma N14_Z : Z.of_nat N14 = 16384. Proof. unfold N14. rewrite Nat2Z.inj_pow. reflexivity. Qed.
Definition mod_dec (n : Z) (m : modulus) : bool := (2 <? mq m) && (mq m <? 2 ^ 61) && (powm (mq m) (mpsi m) n =? mq m - 1).
Lemma mod_dec_ok N n m : (exists L, N = 2 ^ L)%nat -> Z.of_nat N = n -> prime (mq m) -> mod_dec n m = true -> okmod (N := N) m.
Proof.
  intros HL HN P H. unfold mod_dec in H. apply andb_prop in H. destruct H as [H H3]. apply andb_prop in H. destruct H as [H1 H2]. apply Z.ltb_lt in H1, H2. apply Z.eqb_eq in H3.
  split; [|split; [exact P|lia]]. split; [exact P|]. split; [exact H1|]. split; [exact HL|]. rewrite HN. rewrite powm_ok in H3 by lia. apply eqz_iff; [lia|]. rewrite H3.
  replace (-1) with (mq m - 1 + (-1) * mq m) by ring. rewrite Z.mod_add by lia. symmetry. apply Z.mod_small. lia.
Qed.
Lemma shipped_mod15 q x : prime q -> True -> mod_dec 32768 (Mod q x) = true -> okmod (N := N15) (Mod q x).
Proof. intros P _ H. apply (mod_dec_ok N15 32768); [exists 15%nat; reflexivity|exact N15_Z|exact P|exact H]. Qed.
Lemma shipped_mod14 q x : prime q -> True -> mod_dec 16384 (Mod q x) = true -> okmod (N := N14) (Mod q x).
Proof. intros P _ H. apply (mod_dec_ok N14 16384); [exists 14%nat; reflexivity|exact N14_Z|exact P|exact H]. Qed.
Global Opaque N15 N14.

'''
H=H.replace(' -> True -> ',' -> ').replace('intros P _ H. apply (mod_dec_ok','intros P H. apply (mod_dec_ok')
open('/verif/rocq/theories/Shipped.v','w').write(H+'\n'.join(out)+'\n\n'+'\n'.join(body).replace('|reflexivity|vm_compute','|vm_compute')+'\n\n'+'\n'.join(sets)+'\n')
print(len(out),len(body))
