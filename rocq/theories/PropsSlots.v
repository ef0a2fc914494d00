(** C25: rotations shift the slots, conjugation conjugates them.  CKKS slots: values at exp(i pi 5^j / N), written with real sums;
    BFV slots: values modulo t at zeta^(5^j) and at its inverse. *)
From Verif Require Import Base NumTheory Negacyclic Ntt Word BasisExt BasisExtProofs Rows RlweModel KeyGenModel Galois Slots.
From Coq Require Import Reals Znumtheory Zpow_facts Setoid Morphisms Ring_theory InitialRing Lra.
Open Scope Z_scope.

(** ** CKKS *)
Fixpoint rsum (n : nat) (f : nat -> R) : R := match n with O => 0%R | S n => (rsum n f + f n)%R end.
(** the angle of slot j: pi * 5^j / N *)
Definition angle (N j : nat) : R := (PI * IZR (5 ^ Z.of_nat j) / INR N)%R.
(** real and imaginary part of the value of a polynomial at exp(i theta) *)
Definition val_re {N} (a : Negacyclic.R N) (theta : R) : R := rsum N (fun i => (IZR (co a i) * cos (INR i * theta))%R).
Definition val_im {N} (a : Negacyclic.R N) (theta : R) : R := rsum N (fun i => (IZR (co a i) * sin (INR i * theta))%R).
(** slot j of a CKKS plaintext polynomial (before division by the scale) *)
Definition ckks_slot {N} (a : Negacyclic.R N) (j : nat) : R * R := (val_re a (angle N j), val_im a (angle N j)).

Section CC.
  Local Open Scope R_scope.
  Notation CC := (R * R)%type.
  Definition cadd (x y : CC) : CC := (fst x + fst y, snd x + snd y).
  Definition cmul (x y : CC) : CC := (fst x * fst y - snd x * snd y, fst x * snd y + snd x * fst y).
  Definition copp (x : CC) : CC := (- fst x, - snd x).
  Definition csub (x y : CC) : CC := (fst x - fst y, snd x - snd y).
  Lemma CC_ring : ring_theory (0, 0) (1, 0) cadd cmul csub copp eq.
  Proof. constructor; intros; repeat match goal with x : (R * R)%type |- _ => destruct x end; unfold cadd, cmul, csub, copp; cbn [fst snd]; f_equal; ring. Qed.
  Lemma CC_ext : ring_eq_ext cadd cmul copp eq. Proof. constructor; congruence. Qed.
  Notation cpow := (kpow (1, 0) cmul).
  Notation cofZ := (ofZ (0, 0) (1, 0) cadd cmul copp).
  Notation csum := (ksum (0, 0) cadd).
  Definition cis (t : R) : CC := (cos t, sin t).
  Lemma cis_pow t n : cpow (cis t) n = cis (INR n * t).
  Proof.
    induction n as [|n IH]; cbn [kpow].
    - unfold cis. cbn [INR]. rewrite Rmult_0_l, cos_0, sin_0. reflexivity.
    - rewrite IH. unfold cis, cmul. cbn [fst snd]. rewrite S_INR. replace ((INR n + 1) * t) with (t + INR n * t) by ring.
      rewrite cos_plus, sin_plus. f_equal; ring.
  Qed.
  Lemma cofZ_val z : cofZ z = (IZR z, 0).
  Proof.
    assert (P : forall p, cofZ (Z.pos p) = (IZR (Z.pos p), 0)).
    { intros p. apply (Pos.peano_ind (fun p => cofZ (Z.pos p) = (IZR (Z.pos p), 0))); [reflexivity|].
      intros q IH. rewrite Pos2Z.inj_succ. unfold Z.succ. rewrite (ofZ_add _ _ _ _ _ _ _ eq_equivalence CC_ext CC_ring), IH, plus_IZR.
      unfold ofZ. cbn [gen_phiZ gen_phiPOS gen_phiPOS1]. unfold cadd. cbn [fst snd]. f_equal; ring. }
    destruct z as [|p|p]; [reflexivity|apply P|]. change (Z.neg p) with (- Z.pos p)%Z.
    rewrite (ofZ_opp _ _ _ _ _ _ _ eq_equivalence CC_ext CC_ring), P, opp_IZR. unfold copp. cbn [fst snd]. f_equal. ring.
  Qed.
  Lemma csum_val n f : csum n f = (rsum n (fun i => fst (f i)), rsum n (fun i => snd (f i))).
  Proof. induction n as [|n IH]; cbn [ksum rsum]; [reflexivity|]. rewrite IH. reflexivity. Qed.
  Lemma rsum_ext n f g : (forall i, (i < n)%nat -> f i = g i) -> rsum n f = rsum n g.
  Proof. induction n as [|n IH]; intros H; cbn [rsum]; [reflexivity|]. rewrite IH, H by auto with arith. reflexivity. Qed.
  Lemma evalp_cis N (a : Negacyclic.R N) t : evalp (0, 0) (1, 0) cadd cmul copp a (cis t) = (val_re a t, val_im a t).
  Proof.
    unfold evalp. rewrite csum_val. unfold val_re, val_im. f_equal; apply rsum_ext; intros i Hi; rewrite cofZ_val, cis_pow; unfold cmul, cis; cbn [fst snd]; ring.
  Qed.
  Lemma angle_pow N j : (0 < N)%nat -> cpow (cis (PI / INR N)) (5 ^ j) = cis (angle N j).
  Proof.
    intros NP. rewrite cis_pow. unfold angle. f_equal. rewrite INR_IZR_INZ, Nat2Z.inj_pow. change (Z.of_nat 5) with 5%Z.
    unfold Rdiv. ring.
  Qed.
  Lemma angle_pow_neg N j : (0 < N)%nat -> cpow (cis (- (PI / INR N))) (5 ^ j) = cis (- angle N j).
  Proof.
    intros NP. rewrite cis_pow. unfold angle. f_equal. rewrite INR_IZR_INZ, Nat2Z.inj_pow. change (Z.of_nat 5) with 5%Z.
    unfold Rdiv. ring.
  Qed.
  Lemma cis_root N : (0 < N)%nat -> cpow (cis (PI / INR N)) N = copp (1, 0).
  Proof.
    intros NP. rewrite cis_pow. replace (INR N * (PI / INR N)) with PI; [unfold cis; rewrite cos_PI, sin_PI; unfold copp; cbn [fst snd]; f_equal; ring|].
    field. apply not_0_INR. lia.
  Qed.
  Lemma slot_ckks N (a : Negacyclic.R N) j : (0 < N)%nat -> slot (0, 0) (1, 0) cadd cmul copp (cis (PI / INR N)) a j = ckks_slot a j.
  Proof. intros NP. unfold slot. rewrite angle_pow by exact NP. apply evalp_cis. Qed.
  Lemma val_neg N (a : Negacyclic.R N) t : val_re a (- t) = val_re a t /\ val_im a (- t) = (- val_im a t)%R.
  Proof.
    unfold val_re, val_im. split; [apply rsum_ext; intros i _; replace (INR i * - t) with (- (INR i * t)) by ring; rewrite cos_neg; reflexivity|].
    assert (X : forall n f, - rsum n f = rsum n (fun i => - f i)) by (induction n as [|n IH]; intros f; cbn [rsum]; [ring|rewrite <- IH; ring]).
    rewrite X. apply rsum_ext. intros i _. replace (INR i * - t) with (- (INR i * t)) by ring. rewrite sin_neg. ring.
  Qed.
End CC.

(** C25, CKKS: after X -> X^(5^k), slot j holds what slot j + k (mod N/2) held *)
Theorem C25_ckks_rotate : forall N (a : Negacyclic.R N) j k, pow2 N -> (2 <= N)%nat -> ckks_slot (galois (5 ^ Z.of_nat k) a) j = ckks_slot a ((j + k) mod (N / 2)).
Proof.
  intros N a j k P2 N2. rewrite <- !slot_ckks by lia. apply (slot_rotate (0%R, 0%R) (1%R, 0%R) cadd cmul csub copp eq eq_equivalence CC_ext CC_ring); trivial. apply cis_root. lia.
Qed.
(** X -> X^-1 replaces every slot by its complex conjugate *)
Theorem C25_ckks_conjugate : forall N (a : Negacyclic.R N) j, (0 < N)%nat -> ckks_slot (galois (-1) a) j = (fst (ckks_slot a j), (- snd (ckks_slot a j))%R).
Proof.
  intros N a j NP. rewrite <- !slot_ckks by lia.
  rewrite (slot_conj (0%R, 0%R) (1%R, 0%R) cadd cmul csub copp eq eq_equivalence CC_ext CC_ring a (cis (PI / INR N)) (cis (- (PI / INR N)))); [|exact NP|apply cis_root; exact NP|].
  - rewrite slot_ckks by exact NP. unfold slot. rewrite angle_pow_neg by exact NP. rewrite evalp_cis. unfold ckks_slot. cbn [fst snd].
    destruct (val_neg N a (angle N j)) as [-> ->]. reflexivity.
  - unfold cis, cmul. cbn [fst snd]. rewrite cos_neg, sin_neg. f_equal; [|ring]. pose proof (sin2_cos2 (PI / INR N)) as S. unfold Rsqr in S. lra.
Qed.

(** ** BFV *)
Fixpoint zsum (n : nat) (f : nat -> Z) : Z := match n with O => 0 | S n => zsum n f + f n end.
(** slot j of the row of root r: the value at r^(5^j), modulo t *)
Definition bfv_slot {N} (t r : Z) (a : Negacyclic.R N) (j : nat) : Z := zsum N (fun i => co a i * (r ^ (5 ^ Z.of_nat j)) ^ Z.of_nat i) mod t.

Section Mod.
  Variable t : Z.
  Let rq := eqz t.
  Lemma Zt_eqv : Equivalence rq. Proof. constructor; [intros x; reflexivity|intros x y H; symmetry; exact H|intros x y z A B; etransitivity; eassumption]. Qed.
  Lemma Zt_ext : ring_eq_ext Z.add Z.mul Z.opp rq.
  Proof.
    constructor; intros x y H.
    - intros x' y' H'. apply eqz_add; assumption.
    - intros x' y' H'. apply eqz_mul; assumption.
    - destruct H as [c E]. exists (- c). lia.
  Qed.
  Lemma Zt_ring : ring_theory 0 1 Z.add Z.mul Z.sub Z.opp rq.
  Proof. constructor; intros; apply eqz_refl || (replace (eqz t) with rq; [|reflexivity]); match goal with |- rq ?a ?b => replace a with b by ring; apply eqz_refl end. Qed.
  Lemma zpow_kpow x n : kpow 1 Z.mul x n = x ^ Z.of_nat n.
  Proof. induction n as [|n IH]; cbn [kpow]; [reflexivity|]. rewrite IH, Nat2Z.inj_succ, Z.pow_succ_r by lia. reflexivity. Qed.
  Lemma zofZ z : ofZ 0 1 Z.add Z.mul Z.opp z = z.
  Proof.
    assert (P : forall p, gen_phiPOS 1 Z.add Z.mul p = Z.pos p).
    { intros p. assert (Q : gen_phiPOS1 1 Z.add Z.mul p = Z.pos p) by (induction p as [p IH|p IH|]; cbn [gen_phiPOS1]; try rewrite IH; lia). rewrite <- Q.
      assert (G : forall p, gen_phiPOS 1 Z.add Z.mul p = gen_phiPOS1 1 Z.add Z.mul p); [|apply G].
      clear. induction p as [p IH|p IH|]; cbn [gen_phiPOS gen_phiPOS1]; trivial; destruct p; try rewrite IH; cbn [gen_phiPOS1]; lia. }
    unfold ofZ. destruct z as [|p|p]; cbn [gen_phiZ]; [reflexivity|apply P|]. rewrite P. reflexivity.
  Qed.
  Lemma zsum_ksum n f : ksum 0 Z.add n f = zsum n f.
  Proof. induction n as [|n IH]; cbn [ksum zsum]; [reflexivity|]. rewrite IH. reflexivity. Qed.
  Lemma zsum_ext n f g : (forall i, (i < n)%nat -> f i = g i) -> zsum n f = zsum n g.
  Proof. induction n as [|n IH]; intros H; cbn [zsum]; [reflexivity|]. rewrite IH, H by auto with arith. reflexivity. Qed.
  Lemma bfv_slot_eq N r (a : Negacyclic.R N) j : bfv_slot t r a j = (slot 0 1 Z.add Z.mul Z.opp r a j) mod t.
  Proof.
    unfold bfv_slot, slot, evalp. f_equal. etransitivity; [|symmetry; apply zsum_ksum]. apply zsum_ext. intros i Hi. rewrite zofZ, !zpow_kpow, Nat2Z.inj_pow. reflexivity.
  Qed.
End Mod.

(** C25, BFV: both rows rotate left by k; amounts count modulo N/2 *)
Theorem C25_bfv_rotate : forall N t r (a : Negacyclic.R N) j k, pow2 N -> (2 <= N)%nat -> 0 < t -> (t | r ^ Z.of_nat N + 1) ->
  bfv_slot t r (galois (5 ^ Z.of_nat k) a) j = bfv_slot t r a ((j + k) mod (N / 2)).
Proof.
  intros N t r a j k P2 N2 T D. rewrite !bfv_slot_eq. apply eqz_iff; [lia|].
  apply (slot_rotate 0 1 Z.add Z.mul Z.sub Z.opp (eqz t) (Zt_eqv t) (Zt_ext t) (Zt_ring t)); trivial.
  rewrite zpow_kpow. destruct D as [c D]. exists c. lia.
Qed.
(** X -> X^-1 exchanges the two rows (r' is the inverse of r modulo t) *)
Theorem C25_bfv_conjugate : forall N t r r' (a : Negacyclic.R N) j, (0 < N)%nat -> 0 < t -> (t | r ^ Z.of_nat N + 1) -> (t | r * r' - 1) ->
  bfv_slot t r (galois (-1) a) j = bfv_slot t r' a j.
Proof.
  intros N t r r' a j NP T D I. rewrite !bfv_slot_eq. apply eqz_iff; [lia|].
  apply (slot_conj 0 1 Z.add Z.mul Z.sub Z.opp (eqz t) (Zt_eqv t) (Zt_ext t) (Zt_ring t)); trivial.
  rewrite zpow_kpow. destruct D as [c D]. exists c. lia.
Qed.
Theorem C25_period : forall N (a : Negacyclic.R N) k k', pow2 N -> (2 <= N)%nat -> 0 <= k -> 0 <= k' -> k mod Z.of_nat (N / 2) = k' mod Z.of_nat (N / 2) ->
  galois (5 ^ k) a = galois (5 ^ k') a.
Proof.
  intros N a k k' P2 N2 K K' E. apply galois_period; trivial. apply eqz_iff; [|exact E].
  assert (N / 2 <> 0)%nat by (intros Z0; apply Nat.div_small_iff in Z0; lia). lia.
Qed.

(** N = 8, t = 17, root 3 (3^8 = -1 mod 17), inverse 6: rotating by one moves slot 1 to slot 0 *)
Definition ex25_a : Negacyclic.R 8 := mkR (fun i => nth i [1; 2; 3; 4; 5; 6; 7; 8] 0).
Example C25_nonvacuous : (17 | 3 ^ 8 + 1) /\ (17 | 3 * 6 - 1) /\ bfv_slot 17 3 ex25_a 0 <> bfv_slot 17 3 ex25_a 1 /\
  bfv_slot 17 3 (galois (5 ^ 1) ex25_a) 0 = bfv_slot 17 3 ex25_a 1 /\ bfv_slot 17 3 (galois (5 ^ 1) ex25_a) 3 = bfv_slot 17 3 ex25_a 0.
Proof. split; [exists 386; reflexivity|]. split; [exists 1; reflexivity|]. split; [vm_compute; discriminate|]. split; vm_compute; reflexivity. Qed.
Print Assumptions C25_ckks_rotate.
Print Assumptions C25_bfv_rotate.
