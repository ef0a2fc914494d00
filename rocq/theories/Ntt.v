(** The number-theoretic transform used by lattigo's ring package (a dependency, not in /repo):
    NTT / InvNTT are modelled by their defining sums in natural order, all coefficients reduced;
    lattigo stores the same values in bit-reversed order, which no code in /repo can observe except through
    PermuteNTTIndex (modelled by [perm_ntt] in the same natural order).
    Proved here: ring homomorphism, inverse in both directions, action of the Galois automorphisms. *)
From Verif Require Import Base Negacyclic NumTheory.
From Coq Require Import Znumtheory Setoid Morphisms.
Open Scope Z_scope.

Global Instance eqz_equiv q : Equivalence (eqz q).
Proof. constructor; [exact (eqz_refl q)|exact (eqz_sym q)|exact (eqz_trans q)]. Qed.
Global Instance eqz_add_p q : Proper (eqz q ==> eqz q ==> eqz q) Z.add.
Proof. repeat intro. apply eqz_add; assumption. Qed.
Global Instance eqz_sub_p q : Proper (eqz q ==> eqz q ==> eqz q) Z.sub.
Proof. repeat intro. apply eqz_sub; assumption. Qed.
Global Instance eqz_mul_p q : Proper (eqz q ==> eqz q ==> eqz q) Z.mul.
Proof. repeat intro. apply eqz_mul; assumption. Qed.
Global Instance eqz_opp_p q : Proper (eqz q ==> eqz q) Z.opp.
Proof. repeat intro. apply eqz_opp; assumption. Qed.
Global Instance eqm_equiv N q : Equivalence (@eqm N q).
Proof. constructor; [exact (@eqm_refl N q)|exact (@eqm_sym N q)|exact (@eqm_trans N q)]. Qed.
Global Instance eqm_add_p N q : Proper (@eqm N q ==> eqm q ==> eqm q) add.
Proof. repeat intro. apply eqm_add; assumption. Qed.
Global Instance eqm_sub_p N q : Proper (@eqm N q ==> eqm q ==> eqm q) sub.
Proof. repeat intro. apply eqm_sub; assumption. Qed.
Global Instance eqm_mul_p N q : Proper (@eqm N q ==> eqm q ==> eqm q) mul.
Proof. repeat intro. apply eqm_mul; assumption. Qed.
Global Instance eqm_opp_p N q : Proper (@eqm N q ==> eqm q) opp.
Proof. repeat intro. apply eqm_opp; assumption. Qed.
Global Instance eqm_aut_p N q h : Proper (@eqm N q ==> eqm q) (aut h).
Proof. repeat intro. apply aut_eqm; assumption. Qed.

Lemma smul_eqm N q z (a b : R N) : eqm q a b -> eqm q (smul z a) (smul z b).
Proof. intros H. rewrite !smul_cst, H. reflexivity. Qed.
Global Instance eqm_smul_p N q z : Proper (@eqm N q ==> eqm q) (smul z).
Proof. repeat intro. apply smul_eqm; assumption. Qed.

(** a modulus: the prime and the chosen primitive 2N-th root of unity *)
Record modulus := Mod { mq : Z; mpsi : Z }.

Section NTT.
  Context {N : nat}.
  Notation R := (R N).
  Variable m : modulus.
  Notation q := (mq m).
  Notation psi := (mpsi m).

  (** a(w) *)
  Definition ev (a : R) (w : Z) : Z := sum N (fun i => co a i * w ^ Z.of_nat i).

  (** ring.NTT: value at psi^(2j+1), reduced *)
  Definition ntt (a : R) : R := mkR (fun j => ev a (powm q psi (2 * Z.of_nat j + 1)) mod q).

  (** ring.InvNTT *)
  Definition intt (y : R) : R :=
    mkR (fun i => (invm q (Z.of_nat N) *
      sum N (fun j => co y j * powm q (invm q psi) ((2 * Z.of_nat j + 1) * Z.of_nat i))) mod q).

  (** what the parameters of a ring guarantee: an odd prime, N a power of two, psi^N = -1 *)
  Definition okm : Prop := prime q /\ 2 < q /\ (exists L, N = 2 ^ L)%nat /\ eqz q (psi ^ Z.of_nat N) (-1).

  Hypothesis OK : okm.

  Lemma qprime : prime q. Proof. apply OK. Qed.
  Lemma q2 : 2 < q. Proof. apply OK. Qed.
  Lemma Npos : (0 < N)%nat.
  Proof. destruct OK as (_ & _ & (L & E) & _). pose proof (Nat.pow_nonzero 2 L). lia. Qed.

  Lemma psi_nd : ~ (q | psi).
  Proof.
    intros D. destruct OK as (P & Q & _ & E). apply eqz_0 in D.
    assert (H : eqz q (psi ^ Z.of_nat N) (0 ^ Z.of_nat N)) by (apply eqz_pow; [lia|assumption]).
    rewrite Z.pow_0_l in H by (pose proof Npos; lia). rewrite E in H. destruct H as [c H].
    assert (D1 : (q | 1)) by (exists (- c); lia). apply Z.divide_pos_le in D1; lia.
  Qed.

  Lemma N_nd : ~ (q | Z.of_nat N).
  Proof.
    destruct OK as (P & Q & (L & E) & _). rewrite E. clear E.
    induction L as [|L IH]; cbn [Nat.pow]; intros D.
    - apply Z.divide_pos_le in D; lia.
    - replace (Z.of_nat (2 * 2 ^ L)) with (2 * Z.of_nat (2 ^ L)) in D by lia.
      apply prime_mult in D; [|assumption]. destruct D as [D|D]; [|auto]. apply Z.divide_pos_le in D; lia.
  Qed.

  Lemma odd_part d : (0 < d)%nat -> exists t o, d = (2 ^ t * o)%nat /\ Nat.Odd o.
  Proof.
    induction d as [d IH] using lt_wf_ind. intros Hd.
    destruct (Nat.Even_or_Odd d) as [[e He]|O].
    - destruct (IH e) as (t & o & E & O); try lia. exists (S t), o. split; [|assumption].
      cbn [Nat.pow]. lia.
    - exists 0%nat, d. cbn. split; [lia|assumption].
  Qed.

  Lemma m1_odd o : Nat.Odd o -> (-1) ^ Z.of_nat o = -1.
  Proof.
    intros [k ->]. replace (Z.of_nat (2 * k + 1)) with (2 * Z.of_nat k + 1) by lia.
    rewrite Z.pow_add_r, Z.pow_mul_r by lia. change ((-1) ^ 2) with 1. rewrite Z.pow_1_l by lia. reflexivity.
  Qed.

  Lemma psi_order d : (0 < d < N)%nat -> ~ eqz q (psi ^ (2 * Z.of_nat d)) 1.
  Proof.
    intros Hd H. destruct OK as (P & Q & (L & E) & EN).
    destruct (odd_part d) as (t & o & Ed & O); [lia|].
    assert (TL : (t < L)%nat).
    { destruct (le_lt_dec L t) as [G|G]; [exfalso|assumption].
      assert (2 ^ L <= 2 ^ t)%nat by (apply Nat.pow_le_mono_r; lia).
      destruct O as [k ->]. nia. }
    assert (H2 : eqz q (psi ^ (Z.of_nat N * Z.of_nat o)) 1).
    { replace (Z.of_nat N * Z.of_nat o) with (2 * Z.of_nat d * 2 ^ (Z.of_nat (L - t - 1))).
      - rewrite Z.pow_mul_r by lia. transitivity (1 ^ (2 ^ Z.of_nat (L - t - 1))).
        + apply eqz_pow; [lia|assumption].
        + rewrite Z.pow_1_l by lia. reflexivity.
      - rewrite Ed, E. rewrite !Nat2Z.inj_mul, !Nat2Z.inj_pow. change (Z.of_nat 2) with 2.
        replace (Z.of_nat L) with (1 + (Z.of_nat t + Z.of_nat (L - t - 1))) by lia.
        rewrite !Z.pow_add_r, Z.pow_1_r by lia. ring. }
    rewrite Z.pow_mul_r in H2 by lia.
    assert (H3 : eqz q ((psi ^ Z.of_nat N) ^ Z.of_nat o) ((-1) ^ Z.of_nat o)) by (apply eqz_pow; [lia|assumption]).
    rewrite m1_odd in H3 by assumption. rewrite H2 in H3. destruct H3 as [c H3].
    assert (D1 : (q | 2)) by (exists c; lia). apply Z.divide_pos_le in D1; lia.
  Qed.

  Lemma psi_inv : eqz q (psi * invm q psi) 1.
  Proof. apply invm_eqz; [apply qprime|apply psi_nd]. Qed.

  Lemma powm_eqz b e : eqz q (powm q b e) (b ^ e).
  Proof. rewrite powm_ok by (pose proof q2; lia). apply eqz_mod. Qed.

  Lemma psi_odd_pow j : eqz q ((psi ^ (2 * Z.of_nat j + 1)) ^ Z.of_nat N) (-1).
  Proof.
    rewrite <- Z.pow_mul_r by lia. rewrite Z.mul_comm, Z.pow_mul_r by lia.
    destruct OK as (_ & _ & _ & E).
    transitivity ((-1) ^ (2 * Z.of_nat j + 1)); [apply eqz_pow; [lia|assumption]|].
    replace (2 * Z.of_nat j + 1) with (Z.of_nat (2 * j + 1)) by lia. rewrite m1_odd; [reflexivity|]. exists j. lia.
  Qed.

  (** *** evaluation *)
  Lemma ev_eqz a w w' : eqz q w w' -> eqz q (ev a w) (ev a w').
  Proof.
    intros H. apply eqz_sum. intros i _. apply eqz_mul; [reflexivity|]. apply eqz_pow; [lia|assumption].
  Qed.
  Lemma ev_eqm a b w : eqm q a b -> eqz q (ev a w) (ev b w).
  Proof.
    intros H. apply eqz_sum. intros i Hi. apply eqz_mul; [|reflexivity]. apply (proj1 (eqm_co q a b) H i Hi).
  Qed.
  Lemma ev_add a b w : ev (add a b) w = ev a w + ev b w.
  Proof. unfold ev. rewrite <- sum_add. apply sum_ext. intros i _. rewrite co_add. ring. Qed.

  Lemma ev_shift b w i : eqz q (w ^ Z.of_nat N) (-1) ->
    eqz q (sum N (fun k => w ^ Z.of_nat k * ext b (Z.of_nat k - Z.of_nat i))) (w ^ Z.of_nat i * ev b w).
  Proof.
    intros W. pose proof Npos as NP. induction i as [|i IH].
    - rewrite Z.pow_0_r, Z.mul_1_l. apply eqz_sum. intros k Hk. rewrite Z.sub_0_r, ext_co by assumption.
      apply eqz_eq. ring.
    - replace (w ^ Z.of_nat (S i)) with (w * w ^ Z.of_nat i)
        by (rewrite Nat2Z.inj_succ, Z.pow_succ_r by lia; ring).
      rewrite <- Z.mul_assoc, <- IH, <- sum_mul_l.
      set (g := fun k : nat => w ^ Z.of_nat k * ext b (Z.of_nat k - Z.of_nat (S i))).
      assert (E1 : sum N (fun k => w * (w ^ Z.of_nat k * ext b (Z.of_nat k - Z.of_nat i))) = sum N (fun k => g (S k))).
      { apply sum_ext. intros k _. unfold g. rewrite Nat2Z.inj_succ, Z.pow_succ_r by lia.
        rewrite Z.mul_assoc. f_equal. f_equal. lia. }
      rewrite E1.
      assert (E2 : sum N g + g N = g O + sum N (fun k => g (S k))) by (rewrite <- sum_head; reflexivity).
      assert (E3 : eqz q (g N) (g O)).
      { unfold g. rewrite W. change (Z.of_nat 0) with 0. rewrite Z.pow_0_r.
        replace (Z.of_nat N - Z.of_nat (S i)) with (0 - Z.of_nat (S i) + Z.of_nat N) by lia.
        rewrite ext_N by assumption. apply eqz_eq. ring. }
      destruct E3 as [c E3]. exists (- c). lia.
  Qed.

  Lemma ev_mul a b w : eqz q (w ^ Z.of_nat N) (-1) -> eqz q (ev (mul a b) w) (ev a w * ev b w).
  Proof.
    intros W.
    assert (E : ev (mul a b) w = sum N (fun i => co a i * sum N (fun k => w ^ Z.of_nat k * ext b (Z.of_nat k - Z.of_nat i)))).
    { unfold ev.
      rewrite (sum_ext N (fun i => co (mul a b) i * w ^ Z.of_nat i) (fun k => sum N (fun i => w ^ Z.of_nat k * (co a i * ext b (Z.of_nat k - Z.of_nat i))))).
      - rewrite sum_swap. apply sum_ext. intros i _. rewrite <- sum_mul_l. apply sum_ext. intros k _. ring.
      - intros k Hk. unfold mul. rewrite co_mkR by assumption. rewrite <- sum_mul_r. apply sum_ext. intros i _. ring. }
    rewrite E. unfold ev at 1. rewrite <- sum_mul_r.
    apply eqz_sum. intros i _. rewrite (ev_shift b w i W). apply eqz_eq. ring.
  Qed.

  (** *** geometric sums *)
  Lemma geom n w : sum n (fun i => w ^ Z.of_nat i) * (w - 1) = w ^ Z.of_nat n - 1.
  Proof.
    induction n as [|n IH]; [cbn; ring|]. cbn [sum]. rewrite Z.mul_add_distr_r, IH, Nat2Z.inj_succ, Z.pow_succ_r by lia. ring.
  Qed.

  Lemma zero_div x y : eqz q (x * y) 0 -> ~ eqz q y 0 -> eqz q x 0.
  Proof.
    rewrite !eqz_0. intros D ND. apply prime_mult in D; [|apply qprime]. tauto.
  Qed.

  Lemma inv_pow e : 0 <= e -> eqz q (psi ^ e * invm q psi ^ e) 1.
  Proof.
    intros He. rewrite <- Z.pow_mul_l. transitivity (1 ^ e); [apply eqz_pow; [lia|apply psi_inv]|].
    rewrite Z.pow_1_l by lia. reflexivity.
  Qed.

  (* psi^(2k) = psi^(2i) only for k = i *)
  Lemma psi_inj i k : (i < N)%nat -> (k < N)%nat -> i <> k -> ~ eqz q (psi ^ (2 * Z.of_nat k)) (psi ^ (2 * Z.of_nat i)).
  Proof.
    assert (A : forall i k, (i < k < N)%nat -> ~ eqz q (psi ^ (2 * Z.of_nat k)) (psi ^ (2 * Z.of_nat i))).
    { clear i k. intros i k H E. apply (psi_order (k - i)); [lia|].
      replace (2 * Z.of_nat k) with (2 * Z.of_nat i + 2 * Z.of_nat (k - i)) in E by lia.
      rewrite Z.pow_add_r in E by lia.
      apply (eqz_cancel q (psi ^ (2 * Z.of_nat i))).
      - apply prime_gcd; [apply qprime|]. intros D. pose proof qprime as P.
        assert (G : forall n, ~ (q | psi) -> ~ (q | psi ^ Z.of_nat n)).
        { intros n ND. induction n as [|n IH]; [rewrite Z.pow_0_r; intros X; apply Z.divide_pos_le in X; pose proof q2; lia|].
          rewrite Nat2Z.inj_succ, Z.pow_succ_r by lia. intros X. apply prime_mult in X; tauto. }
        exfalso. apply (G (2 * i)%nat psi_nd). replace (Z.of_nat (2 * i)) with (2 * Z.of_nat i) by lia. assumption.
      - rewrite Z.mul_1_r. assumption. }
    intros Hi Hk D E. destruct (Nat.lt_trichotomy i k) as [H|[H|H]].
    - apply (A i k); [lia|assumption].
    - contradiction.
    - apply (A k i); [lia|]. symmetry. assumption.
  Qed.

  Lemma ninv : eqz q (invm q (Z.of_nat N) * Z.of_nat N) 1.
  Proof. rewrite Z.mul_comm. apply invm_eqz; [apply qprime|apply N_nd]. Qed.

  Lemma orth1 i k : (i < N)%nat -> (k < N)%nat ->
    eqz q (sum N (fun j => psi ^ ((2 * Z.of_nat j + 1) * Z.of_nat k) * invm q psi ^ ((2 * Z.of_nat j + 1) * Z.of_nat i)))
          (if (i =? k)%nat then Z.of_nat N else 0).
  Proof.
    intros Hi Hk. destruct (Nat.eqb_spec i k) as [->|D].
    - rewrite <- (Z.mul_1_r (Z.of_nat N)), <- sum_const. apply eqz_sum. intros j _. apply inv_pow. lia.
    - set (w := psi ^ Z.of_nat k * invm q psi ^ Z.of_nat i).
      assert (E : sum N (fun j => psi ^ ((2 * Z.of_nat j + 1) * Z.of_nat k) * invm q psi ^ ((2 * Z.of_nat j + 1) * Z.of_nat i))
                  = w * sum N (fun j => (w ^ 2) ^ Z.of_nat j)).
      { rewrite <- sum_mul_l. apply sum_ext. intros j _.
        rewrite <- Z.pow_mul_r by lia.
        replace (w * w ^ (2 * Z.of_nat j)) with (w ^ (2 * Z.of_nat j + 1)) by (rewrite Z.pow_add_r, Z.pow_1_r by lia; ring).
        unfold w. rewrite Z.pow_mul_l, <- !Z.pow_mul_r by lia. f_equal; f_equal; ring. }
      rewrite E.
      assert (Z0 : eqz q (sum N (fun j => (w ^ 2) ^ Z.of_nat j)) 0).
      { apply (zero_div _ (w ^ 2 - 1)).
        - rewrite geom. rewrite <- Z.pow_mul_r by lia. unfold w. rewrite Z.pow_mul_l, <- !Z.pow_mul_r by lia.
          replace (Z.of_nat k * (2 * Z.of_nat N)) with (Z.of_nat N * (2 * Z.of_nat k)) by ring.
          replace (Z.of_nat i * (2 * Z.of_nat N)) with (Z.of_nat N * (2 * Z.of_nat i)) by ring.
          assert (A : forall n, eqz q (psi ^ (Z.of_nat N * (2 * Z.of_nat n))) 1).
          { intros n. rewrite Z.pow_mul_r by lia. destruct OK as (_ & _ & _ & EN).
            transitivity ((-1) ^ (2 * Z.of_nat n)); [apply eqz_pow; [lia|assumption]|].
            rewrite Z.pow_mul_r by lia. change ((-1) ^ 2) with 1. rewrite Z.pow_1_l by lia. reflexivity. }
          assert (B : forall n, eqz q (invm q psi ^ (Z.of_nat N * (2 * Z.of_nat n))) 1).
          { intros n. pose proof (inv_pow (Z.of_nat N * (2 * Z.of_nat n)) ltac:(lia)) as I. rewrite (A n), Z.mul_1_l in I. assumption. }
          rewrite A, B. reflexivity.
        - intros H. apply (psi_inj i k Hi Hk D).
          assert (W2 : eqz q (w ^ 2) 1) by (destruct H as [c H]; exists c; lia).
          transitivity (w ^ 2 * psi ^ (2 * Z.of_nat i)); [|rewrite W2; apply eqz_eq; ring].
          unfold w. rewrite Z.pow_mul_l, <- !Z.pow_mul_r by lia.
          rewrite <- Z.mul_assoc.
          replace (invm q psi ^ (Z.of_nat i * 2) * psi ^ (2 * Z.of_nat i)) with (psi ^ (2 * Z.of_nat i) * invm q psi ^ (2 * Z.of_nat i))
            by (rewrite (Z.mul_comm (Z.of_nat i) 2); ring).
          rewrite inv_pow by lia. apply eqz_eq. rewrite Z.mul_1_r. f_equal. ring. }
      rewrite Z0. apply eqz_eq. ring.
  Qed.

  Lemma orth2 j l : (j < N)%nat -> (l < N)%nat ->
    eqz q (sum N (fun i => psi ^ ((2 * Z.of_nat j + 1) * Z.of_nat i) * invm q psi ^ ((2 * Z.of_nat l + 1) * Z.of_nat i)))
          (if (j =? l)%nat then Z.of_nat N else 0).
  Proof.
    intros Hj Hl. destruct (Nat.eqb_spec j l) as [->|D].
    - rewrite <- (Z.mul_1_r (Z.of_nat N)), <- sum_const. apply eqz_sum. intros i _. apply inv_pow. lia.
    - set (w := psi ^ (2 * Z.of_nat j + 1) * invm q psi ^ (2 * Z.of_nat l + 1)).
      assert (E : sum N (fun i => psi ^ ((2 * Z.of_nat j + 1) * Z.of_nat i) * invm q psi ^ ((2 * Z.of_nat l + 1) * Z.of_nat i))
                  = sum N (fun i => w ^ Z.of_nat i)).
      { apply sum_ext. intros i _. unfold w. rewrite Z.pow_mul_l, <- !Z.pow_mul_r by lia. reflexivity. }
      rewrite E. apply (zero_div _ (w - 1)).
      + rewrite geom. unfold w. rewrite Z.pow_mul_l.
        rewrite (psi_odd_pow j).
        assert (B : eqz q ((invm q psi ^ (2 * Z.of_nat l + 1)) ^ Z.of_nat N) (-1)).
        { pose proof (inv_pow ((2 * Z.of_nat l + 1) * Z.of_nat N) ltac:(lia)) as I.
          rewrite !Z.pow_mul_r in I by lia. rewrite (psi_odd_pow l) in I.
          destruct I as [c I]. exists (- c). lia. }
        rewrite B. reflexivity.
      + intros H. apply (psi_inj l j Hl Hj ltac:(congruence)).
        assert (W : eqz q w 1) by (destruct H as [c H]; exists c; lia).
        apply (eqz_cancel q psi); [apply prime_gcd; [apply qprime|apply psi_nd]|].
        assert (PS : forall n, psi * psi ^ (2 * Z.of_nat n) = psi ^ (2 * Z.of_nat n + 1))
          by (intros; rewrite Z.pow_add_r, Z.pow_1_r by lia; ring).
        rewrite !PS.
        transitivity (w * psi ^ (2 * Z.of_nat l + 1)); [|rewrite W; apply eqz_eq; ring].
        unfold w. rewrite <- Z.mul_assoc, (Z.mul_comm (invm _ _ ^ _)), inv_pow by lia. apply eqz_eq. ring.
  Qed.

  (** *** the transforms *)
  Lemma ntt_co a j : (j < N)%nat -> eqz q (co (ntt a) j) (ev a (psi ^ (2 * Z.of_nat j + 1))).
  Proof.
    intros Hj. unfold ntt. rewrite co_mkR by assumption. rewrite eqz_mod. apply ev_eqz. apply powm_eqz.
  Qed.
  Lemma intt_co y i : (i < N)%nat -> eqz q (co (intt y) i)
    (invm q (Z.of_nat N) * sum N (fun j => co y j * invm q psi ^ ((2 * Z.of_nat j + 1) * Z.of_nat i))).
  Proof.
    intros Hi. unfold intt. rewrite co_mkR by assumption. rewrite eqz_mod. apply eqz_mul; [reflexivity|].
    apply eqz_sum. intros j _. rewrite powm_eqz. reflexivity.
  Qed.

  Lemma ntt_eqm a b : eqm q a b -> ntt a = ntt b.
  Proof.
    intros H. apply mkR_ext. intros j Hj. apply eqz_iff; [pose proof q2; lia|]. apply ev_eqm. assumption.
  Qed.
  Lemma intt_eqm a b : eqm q a b -> intt a = intt b.
  Proof.
    intros H. apply mkR_ext. intros i Hi. apply eqz_iff; [pose proof q2; lia|]. apply eqz_mul; [reflexivity|].
    apply eqz_sum. intros j Hj. apply eqz_mul; [|reflexivity]. apply (proj1 (eqm_co q a b) H j Hj).
  Qed.

  Theorem intt_ntt a : eqm q (intt (ntt a)) a.
  Proof.
    apply eqm_co. intros i Hi. fold (eqz q (co (intt (ntt a)) i) (co a i)).
    rewrite intt_co by assumption.
    transitivity (invm q (Z.of_nat N) * sum N (fun k => co a k * (if (i =? k)%nat then Z.of_nat N else 0))).
    - apply eqz_mul; [reflexivity|].
      transitivity (sum N (fun k => co a k * sum N (fun j => psi ^ ((2 * Z.of_nat j + 1) * Z.of_nat k) * invm q psi ^ ((2 * Z.of_nat j + 1) * Z.of_nat i)))).
      + rewrite (sum_ext N (fun k => co a k * _) (fun k => sum N (fun j => co a k * psi ^ ((2 * Z.of_nat j + 1) * Z.of_nat k) * invm q psi ^ ((2 * Z.of_nat j + 1) * Z.of_nat i)))).
        2:{ intros k _. rewrite <- sum_mul_l. apply sum_ext. intros. ring. }
        rewrite sum_swap. apply eqz_sum. intros j Hj. rewrite ntt_co by assumption. unfold ev. rewrite <- sum_mul_r.
        apply eqz_sum. intros k _. rewrite <- Z.pow_mul_r by lia. reflexivity.
      + apply eqz_sum. intros k Hk. rewrite orth1 by assumption. reflexivity.
    - rewrite (sum_single N _ i Hi).
      + rewrite Nat.eqb_refl. rewrite (Z.mul_comm (co a i)), Z.mul_assoc, ninv. apply eqz_eq. ring.
      + intros k _ Nk. destruct (Nat.eqb_spec i k); [congruence|ring].
  Qed.

  Theorem ntt_intt y : eqm q (ntt (intt y)) y.
  Proof.
    apply eqm_co. intros l Hl. fold (eqz q (co (ntt (intt y)) l) (co y l)).
    rewrite ntt_co by assumption. unfold ev.
    transitivity (invm q (Z.of_nat N) * sum N (fun j => co y j * (if (l =? j)%nat then Z.of_nat N else 0))).
    - transitivity (sum N (fun i => invm q (Z.of_nat N) * sum N (fun j => co y j * invm q psi ^ ((2 * Z.of_nat j + 1) * Z.of_nat i)) * psi ^ ((2 * Z.of_nat l + 1) * Z.of_nat i))).
      + apply eqz_sum. intros i Hi. rewrite intt_co by assumption. rewrite <- Z.pow_mul_r by lia. reflexivity.
      + transitivity (invm q (Z.of_nat N) * sum N (fun j => co y j * sum N (fun i => psi ^ ((2 * Z.of_nat l + 1) * Z.of_nat i) * invm q psi ^ ((2 * Z.of_nat j + 1) * Z.of_nat i)))).
        * apply eqz_eq. rewrite <- sum_mul_l.
          rewrite (sum_ext N (fun j => invm q (Z.of_nat N) * _) (fun j => sum N (fun i => invm q (Z.of_nat N) * co y j * (psi ^ ((2 * Z.of_nat l + 1) * Z.of_nat i) * invm q psi ^ ((2 * Z.of_nat j + 1) * Z.of_nat i))))).
          2:{ intros j _. rewrite <- !sum_mul_l. apply sum_ext. intros. ring. }
          rewrite sum_swap. apply sum_ext. intros i _. rewrite <- sum_mul_l, <- sum_mul_r. apply sum_ext. intros. ring.
        * apply eqz_mul; [reflexivity|]. apply eqz_sum. intros j Hj. rewrite (orth2 l j) by assumption. reflexivity.
    - rewrite (sum_single N _ l Hl).
      + rewrite Nat.eqb_refl. rewrite (Z.mul_comm (co y l)), Z.mul_assoc, ninv. apply eqz_eq. ring.
      + intros k _ Nk. destruct (Nat.eqb_spec l k); [congruence|ring].
  Qed.

  Lemma ntt_inj a b : eqm q (ntt a) (ntt b) -> eqm q a b.
  Proof.
    intros H. rewrite <- (intt_ntt a), <- (intt_ntt b). rewrite (intt_eqm _ _ H). reflexivity.
  Qed.

  (** coefficient-wise product of transforms *)
  Definition had (a b : R) : R := mkR (fun i => co a i * co b i).

  Lemma ntt_mul a b : eqm q (ntt (mul a b)) (had (ntt a) (ntt b)).
  Proof.
    apply eqm_co. intros j Hj. unfold had. rewrite co_mkR by assumption.
    fold (eqz q (co (ntt (mul a b)) j) (co (ntt a) j * co (ntt b) j)).
    rewrite !ntt_co by assumption. apply ev_mul. apply psi_odd_pow.
  Qed.
  Lemma ntt_add a b : eqm q (ntt (add a b)) (add (ntt a) (ntt b)).
  Proof.
    apply eqm_co. intros j Hj. rewrite co_add.
    fold (eqz q (co (ntt (add a b)) j) (co (ntt a) j + co (ntt b) j)).
    rewrite !ntt_co by assumption. rewrite ev_add. reflexivity.
  Qed.

  Lemma had_eqm a a' b b' : eqm q a a' -> eqm q b b' -> eqm q (had a b) (had a' b').
  Proof.
    intros H K. apply eqm_co. intros i Hi. unfold had. rewrite !co_mkR by assumption.
    apply eqz_mul; [apply (proj1 (eqm_co q a a') H i Hi)|apply (proj1 (eqm_co q b b') K i Hi)].
  Qed.

  Theorem intt_had a b : eqm q (intt (had a b)) (mul (intt a) (intt b)).
  Proof.
    apply ntt_inj. rewrite ntt_intt, ntt_mul. apply had_eqm; symmetry; apply ntt_intt.
  Qed.

  Lemma intt_lin x y a b c : (forall i, (i < N)%nat -> eqz q (co c i) (x * co a i + y * co b i)) ->
    eqm q (intt c) (add (smul x (intt a)) (smul y (intt b))).
  Proof.
    intros H. apply eqm_co. intros i Hi. rewrite co_add, !co_smul.
    fold (eqz q (co (intt c) i) (x * co (intt a) i + y * co (intt b) i)).
    rewrite !intt_co by assumption.
    transitivity (invm q (Z.of_nat N) * sum N (fun j => (x * co a j + y * co b j) * invm q psi ^ ((2 * Z.of_nat j + 1) * Z.of_nat i))).
    - apply eqz_mul; [reflexivity|]. apply eqz_sum. intros j Hj. rewrite H by assumption. reflexivity.
    - apply eqz_eq.
      rewrite (sum_ext N _ (fun j => x * (co a j * invm q psi ^ ((2 * Z.of_nat j + 1) * Z.of_nat i)) + y * (co b j * invm q psi ^ ((2 * Z.of_nat j + 1) * Z.of_nat i))))
        by (intros; ring).
      rewrite sum_add, !sum_mul_l. ring.
  Qed.

  Lemma intt_add a b : eqm q (intt (add a b)) (add (intt a) (intt b)).
  Proof.
    rewrite (intt_lin 1 1 a b (add a b)).
    - apply eqm_co. intros i Hi. rewrite !co_add, !co_smul. apply eqz_eq. ring.
    - intros i _. rewrite co_add. apply eqz_eq. ring.
  Qed.
  Lemma intt_sub a b : eqm q (intt (sub a b)) (sub (intt a) (intt b)).
  Proof.
    rewrite (intt_lin 1 (-1) a b (sub a b)).
    - apply eqm_co. intros i Hi. rewrite co_add, co_sub, !co_smul. apply eqz_eq. ring.
    - intros i _. rewrite co_sub. apply eqz_eq. ring.
  Qed.
  Lemma intt_smul z a : eqm q (intt (smul z a)) (smul z (intt a)).
  Proof.
    rewrite (intt_lin z 0 a a (smul z a)).
    - apply eqm_co. intros i Hi. rewrite co_add, !co_smul. apply eqz_eq. ring.
    - intros i _. rewrite co_smul. apply eqz_eq. ring.
  Qed.
  Lemma intt_R0 : eqm q (intt R0) R0.
  Proof.
    rewrite (intt_lin 0 0 R0 R0 R0).
    - apply eqm_co. intros i Hi. rewrite co_add, !co_smul, co_R0. apply eqz_eq. ring.
    - intros i _. rewrite co_R0. apply eqz_eq. ring.
  Qed.

  Lemma ntt_range a i : (i < N)%nat -> 0 <= co (ntt a) i < q.
  Proof. intros Hi. unfold ntt. rewrite co_mkR by assumption. apply Z.mod_pos_bound. pose proof q2. lia. Qed.
  Lemma intt_range a i : (i < N)%nat -> 0 <= co (intt a) i < q.
  Proof. intros Hi. unfold intt. rewrite co_mkR by assumption. apply Z.mod_pos_bound. pose proof q2. lia. Qed.

  (** *** automorphisms
      ring.PermuteNTTIndex(g) + ring.PermuteNTTWithIndex: entry j of the image is the entry at the index i with
      2i+1 = g(2j+1) mod 2N. *)
  Definition perm_idx (g : Z) (j : nat) : nat := Z.to_nat (((g * (2 * Z.of_nat j + 1)) mod (2 * Z.of_nat N) - 1) / 2).
  Definition perm_ntt (g : Z) (a : R) : R := mkR (fun j => co a (perm_idx g j)).

  Lemma odd_gcd h : Z.odd h = true -> Z.gcd h (Z.of_nat N) = 1.
  Proof.
    intros O. destruct OK as (_ & _ & (L & E) & _). rewrite E, Nat2Z.inj_pow. change (Z.of_nat 2) with 2.
    assert (G : Z.gcd h 2 = 1).
    { apply Zgcd_1_rel_prime. apply rel_prime_sym. apply prime_rel_prime; [apply prime_2|].
      intros [c D]. subst h. rewrite Z.odd_mul in O. change (Z.odd 2) with false in O. rewrite Bool.andb_false_r in O. discriminate. }
    clear E. induction L as [|L IH]; [apply Z.gcd_1_r|].
    rewrite Nat2Z.inj_succ, Z.pow_succ_r by lia. apply Zgcd_1_rel_prime.
    apply rel_prime_mult; apply Zgcd_1_rel_prime; assumption.
  Qed.

  Lemma ev_aut g h a w : eqz q (w ^ Z.of_nat N) (-1) -> 0 <= g -> Z.odd g = true -> Z.odd h = true ->
    (2 * Z.of_nat N | g * h - 1) -> eqz q (ev (aut h a) w) (ev a (w ^ g)).
  Proof.
    intros W G0 Og Oh GH. pose proof Npos as NP. pose proof q2 as Q2.
    set (pw := fun e => w ^ (e mod (2 * Z.of_nat N))).
    assert (P1 : forall e, 0 <= e -> eqz q (w ^ e) (pw e)).
    { intros e He. unfold pw. rewrite (Z.div_mod e (2 * Z.of_nat N)) at 1 by lia.
      pose proof (Z.mod_pos_bound e (2 * Z.of_nat N) ltac:(lia)).
      pose proof (Z.div_pos e (2 * Z.of_nat N) He ltac:(lia)).
      rewrite Z.pow_add_r by lia. transitivity (1 * w ^ (e mod (2 * Z.of_nat N))); [|apply eqz_eq; ring].
      apply eqz_mul; [|reflexivity]. rewrite Z.pow_mul_r by lia.
      transitivity (1 ^ (e / (2 * Z.of_nat N))); [|rewrite Z.pow_1_l by lia; reflexivity].
      apply eqz_pow; [lia|]. rewrite Z.mul_comm, Z.pow_mul_r by lia.
      transitivity ((-1) ^ 2); [apply eqz_pow; [lia|assumption]|reflexivity]. }
    assert (P2 : forall e, pw (e + 2 * Z.of_nat N) = pw e).
    { intros e. unfold pw. f_equal. rewrite <- (Z.mul_1_l (2 * Z.of_nat N)) at 1. apply Z.mod_add. lia. }
    assert (P2k : forall k e, pw (e + k * (2 * Z.of_nat N)) = pw e).
    { intros k e. unfold pw. f_equal. apply Z.mod_add. lia. }
    assert (P3 : forall e, eqz q (pw (e + Z.of_nat N)) (- pw e)).
    { intros e. set (e' := e mod (2 * Z.of_nat N)).
      pose proof (Z.mod_pos_bound e (2 * Z.of_nat N) ltac:(lia)) as B. fold e' in B.
      replace (pw (e + Z.of_nat N)) with (pw (e' + Z.of_nat N)).
      - rewrite <- P1 by lia. rewrite Z.pow_add_r, W by lia. unfold pw. fold e'. apply eqz_eq. ring.
      - unfold pw, e'. f_equal. rewrite Zplus_mod_idemp_l. reflexivity. }
    set (f := fun x => (pw (x * g) * ext a x) mod q).
    assert (PER : forall x, f (x + Z.of_nat N) = f x).
    { intros x. unfold f. apply eqz_iff; [lia|]. rewrite ext_N by assumption.
      destruct (proj1 (Z.odd_spec g) Og) as [k Hk].
      replace ((x + Z.of_nat N) * g) with (x * g + Z.of_nat N + k * (2 * Z.of_nat N)) by (rewrite Hk; ring).
      rewrite P2k, P3. apply eqz_eq. ring. }
    transitivity (sum N (fun i => f (Z.of_nat i))).
    - rewrite <- (per_scale N f PER h (odd_gcd h Oh)). unfold ev. apply eqz_sum. intros i Hi.
      unfold f. rewrite eqz_mod. unfold aut. rewrite co_mkR by assumption.
      rewrite Z.mul_comm. apply eqz_mul; [|apply eqz_eq; f_equal; ring].
      rewrite P1 by lia. apply eqz_eq. destruct GH as [c GH].
      replace (h * Z.of_nat i * g) with (Z.of_nat i + (Z.of_nat i * c) * (2 * Z.of_nat N)); [rewrite P2k; reflexivity|].
      assert (E : g * h = 1 + c * (2 * Z.of_nat N)) by lia.
      transitivity (Z.of_nat i * (g * h)); [rewrite E|]; ring.
    - unfold ev. apply eqz_sum. intros i Hi. unfold f. rewrite eqz_mod, ext_co by assumption.
      rewrite <- P1 by nia. rewrite <- Z.pow_mul_r by lia. apply eqz_eq. rewrite (Z.mul_comm g). ring.
  Qed.

  Lemma perm_idx_spec g j : Z.odd g = true ->
    (perm_idx g j < N)%nat /\ 2 * Z.of_nat (perm_idx g j) + 1 = (g * (2 * Z.of_nat j + 1)) mod (2 * Z.of_nat N).
  Proof.
    intros O. pose proof Npos as NP. set (x := (g * (2 * Z.of_nat j + 1)) mod (2 * Z.of_nat N)).
    pose proof (Z.mod_pos_bound (g * (2 * Z.of_nat j + 1)) (2 * Z.of_nat N) ltac:(lia)) as B. fold x in B.
    assert (OX : Z.odd x = true).
    { assert (E : g * (2 * Z.of_nat j + 1) = x + 2 * (Z.of_nat N * (g * (2 * Z.of_nat j + 1) / (2 * Z.of_nat N)))).
      { unfold x. rewrite (Z.div_mod (g * (2 * Z.of_nat j + 1)) (2 * Z.of_nat N)) at 1 by lia. ring. }
      apply (f_equal Z.odd) in E. rewrite Z.odd_mul, O, !Z.odd_add, !Z.odd_mul in E. change (Z.odd 2) with false in E. change (Z.odd 1) with true in E.
      cbn [andb xorb] in E. rewrite Bool.xorb_false_r in E. congruence. }
    destruct (proj1 (Z.odd_spec x) OX) as [k Hk]. unfold perm_idx. fold x. rewrite Hk.
    replace (2 * k + 1 - 1) with (k * 2) by ring. rewrite Z.div_mul by lia. rewrite Z2Nat.id by lia. lia.
  Qed.

  Theorem intt_perm g h a : 0 <= g -> Z.odd g = true -> Z.odd h = true -> (2 * Z.of_nat N | g * h - 1) ->
    eqm q (intt (perm_ntt g a)) (aut h (intt a)).
  Proof.
    intros G0 Og Oh GH. apply ntt_inj. rewrite ntt_intt. apply eqm_co. intros j Hj.
    fold (eqz q (co (perm_ntt g a) j) (co (ntt (aut h (intt a))) j)).
    rewrite ntt_co by assumption. rewrite (ev_aut g h) by (trivial; apply psi_odd_pow).
    unfold perm_ntt. rewrite co_mkR by assumption.
    destruct (perm_idx_spec g j Og) as [B E].
    pose proof (proj1 (eqm_co q _ _) (ntt_intt a) (perm_idx g j) B) as K. fold (eqz q (co (ntt (intt a)) (perm_idx g j)) (co a (perm_idx g j))) in K.
    rewrite <- K, ntt_co by assumption. apply ev_eqz. rewrite E.
    rewrite <- Z.pow_mul_r by lia. rewrite (Z.mul_comm _ g).
    set (e := g * (2 * Z.of_nat j + 1)). pose proof Npos as NP.
    rewrite (Z.div_mod e (2 * Z.of_nat N)) at 2 by lia.
    pose proof (Z.mod_pos_bound e (2 * Z.of_nat N) ltac:(lia)).
    assert (0 <= e) by (unfold e; nia).
    pose proof (Z.div_pos e (2 * Z.of_nat N) ltac:(lia) ltac:(lia)).
    rewrite Z.pow_add_r by lia. symmetry. transitivity (1 * psi ^ (e mod (2 * Z.of_nat N))); [|apply eqz_eq; ring].
    apply eqz_mul; [|reflexivity]. rewrite Z.pow_mul_r by lia.
    transitivity (1 ^ (e / (2 * Z.of_nat N))); [|rewrite Z.pow_1_l by lia; reflexivity].
    apply eqz_pow; [lia|]. rewrite Z.mul_comm, Z.pow_mul_r by lia.
    destruct OK as (_ & _ & _ & EN). transitivity ((-1) ^ 2); [apply eqz_pow; [lia|assumption]|reflexivity].
  Qed.
End NTT.
