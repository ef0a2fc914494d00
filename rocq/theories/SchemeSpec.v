(** Specification vocabulary for the scheme-level properties (C11 onwards): what rows, keys and samples stand for.
    Polynomials are elements of Z[X]/(X^N+1) ([R N], Negacyclic.v); [eqm q a b] is congruence modulo q, [bnd a B] says that
    every coefficient is at most B in absolute value; [intt] is the inverse number-theoretic transform (Ntt.v). *)
From Verif Require Import Base NumTheory Negacyclic Ntt Word BasisExt BasisExtProofs DecompProofs Rows RlweModel.
Open Scope Z_scope.

(** a modulus of the extended chain: Q_j or P_k *)
Inductive mi := MQ (j : nat) | MP (k : nat).
Definition md (pp : rparams) (i : mi) : modulus := match i with MQ j => Qi pp j | MP k => Pi pp k end.
Definition vi (pp : rparams) (level : nat) (i : mi) : Prop := match i with MQ j => (j <= level)%nat | MP k => (k < length (Pm pp))%nat end.
Definition qmod (pp : rparams) (i : mi) : Z := mq (md pp i).

(** parameters the library accepts *)
Record wfp (N : nat) (pp : rparams) : Prop := {
  wf_base : okbase (Qs pp ++ Ps pp);
  wf_okm : Forall (okmod (N := N)) (Qm pp ++ Pm pp);
  wf_gam : (0 < gam pp)%nat;
  wf_div : (gam pp * alpha pp)%nat = length (Pm pp) \/ alpha pp = 1%nat; (* other counts of special primes make every decomposition above level 0 panic: C11 *)
  wf_alpha : (0 < alpha pp <= 32)%nat;
  wf_P32 : (length (Pm pp) <= 32)%nat;
  wf_Q : Z.of_nat (length (Qm pp)) < 2 ^ 52;
  wf_Qpos : (0 < length (Qm pp))%nat;
  wf_N : (2 <= N)%nat /\ Z.of_nat N <= 2 ^ 31 }.

Lemma gam_alpha_le {N} pp (WF : wfp N pp) : (gam pp * alpha pp <= length (Pm pp))%nat.
Proof. unfold alpha. pose proof (wf_gam _ _ WF). apply Nat.mul_div_le. lia. Qed.

(** x plus the 2^-40 exception of the base conversion *)
Definition slack (x : Z) : Z := x + x / 2 ^ 40.
(** largest product of the moduli of one digit block, with the exception: bound of the digits *)
Definition maxl (l : list Z) : Z := fold_right Z.max 0 l.
Definition dig_bound (pp : rparams) (level : nat) : Z :=
  slack (maxl (map (fun i => prodl (blk (alpha pp) level i (Qs pp))) (seq 0 (beta pp level)))).

Section Spec.
  Context {N : nat} (pp : rparams).
  Notation R := (R N).
  Notation L := (maxLevel pp).
  (** the row of a polynomial over QP (of a polynomial over Q) for modulus i *)
  Definition fqp (x : polyQP N) (i : mi) : R := match i with MQ j => row (qpQ x) j | MP k => row (qpP x) k end.
  Definition frow (a : list R) (i : mi) : R := match i with MQ j => row a j | MP _ => R0 end.
  (** rows of a coefficient-domain input polynomial: residues in [0, q] *)
  Definition okrows level (a : list R) : Prop := (level < length a)%nat /\ forall j, (j <= level)%nat -> inr (Qi pp j) (row a j).
  (** a key digit stands for the family f (Montgomery form, NTT domain) *)
  Definition mval level (x : polyQP N) (f : mi -> R) : Prop :=
    forall i, vi pp level i -> inr (md pp i) (fqp x i) /\ repM (md pp i) (fqp x i) (f i).
  Definition pval level (x : polyQP N) (f : mi -> R) : Prop :=
    forall i, vi pp level i -> inr (md pp i) (fqp x i) /\ rep (md pp i) (fqp x i) (f i).

  (** the gadget vector: P on the moduli of block k, 0 on all others *)
  Definition gad (k : nat) (i : mi) : R :=
    match i with MQ j => if ((k * alpha pp <=? j) && (j <? (k + 1) * alpha pp))%nat then cst (Pprod pp) else R0 | MP _ => R0 end.
  (** the polynomial a Montgomery-form NTT row stands for (defined for every row) *)
  Definition unM (m : modulus) (a : R) : R := smul (invm (mq m) W) (intt m a).
  Definition dQP : polyQP N := QP nil nil.
  Definition crs_ok (key : swk N) : Prop :=
    (beta pp L <= length key)%nat /\ forall k i, (k < beta pp L)%nat -> vi pp L i -> inr (md pp i) (fqp (nth k key dQP) i).
  Definition swk_val (key : swk N) (k : nat) (i : mi) : R := unM (md pp i) (fqp (nth k key dQP) i).
  Definition wordsQP (x : polyQP N) : Prop := forall i, vi pp L i -> wrd (fqp x i).
  (** the rows hold the residues (in [0, q]) of one integer polynomial e with coefficients at most B *)
  Definition is_sample (B : Z) (e : R) (smp : list R) : Prop :=
    bnd e B /\ forall j, (j <= L)%nat -> inr (Qi pp j) (row smp j) /\ eqm (mq (Qi pp j)) (row smp j) e.
  Definition small_ok (B : Z) : Prop := 2 * B < mq (Qi pp 0) /\ forall k, (k < length (Pm pp))%nat -> B <= mq (Pi pp k).
  (** the polynomial an NTT row stands for *)
  Definition raw_val (x : polyQP N) (i : mi) : R := intt (md pp i) (fqp x i).
End Spec.
