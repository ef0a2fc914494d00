(** The slots of a CKKS plaintext polynomial are a ring homomorphism to the complex numbers, and small polynomials have small slots. *)
From Verif Require Import Base NumTheory Negacyclic Ntt Galois Slots PropsSlots.
From Coq Require Import Reals Znumtheory Setoid Morphisms Ring_theory Lra.
Open Scope R_scope.

Notation CC := (R * R)%type.
Definition cabs (x : CC) : R := sqrt (fst x * fst x + snd x * snd x).
Definition cscale (r : R) (x : CC) : CC := (r * fst x, r * snd x).
Definition cconj (x : CC) : CC := (fst x, - snd x).

Lemma sq_nonneg x : 0 <= x * x. Proof. pose proof (Rle_0_sqr x). exact H. Qed.
Lemma cabs_nonneg x : 0 <= cabs x. Proof. apply sqrt_pos. Qed.
Lemma cabs_sq x : cabs x * cabs x = fst x * fst x + snd x * snd x.
Proof. unfold cabs. apply sqrt_sqrt. pose proof (sq_nonneg (fst x)). pose proof (sq_nonneg (snd x)). lra. Qed.
Lemma cabs_le x y : 0 <= y -> fst x * fst x + snd x * snd x <= y * y -> cabs x <= y.
Proof. intros Hy H. apply Rsqr_incr_0_var; [|exact Hy]. unfold Rsqr. rewrite cabs_sq. exact H. Qed.
Lemma cabs_eq x y : 0 <= y -> fst x * fst x + snd x * snd x = y * y -> cabs x = y.
Proof. intros Hy H. unfold cabs. rewrite H. apply sqrt_square. exact Hy. Qed.
Lemma cabs_mul x y : cabs (cmul x y) = cabs x * cabs y.
Proof.
  apply cabs_eq; [apply Rmult_le_pos; apply cabs_nonneg|]. replace (cabs x * cabs y * (cabs x * cabs y)) with ((cabs x * cabs x) * (cabs y * cabs y)) by ring.
  rewrite !cabs_sq. unfold cmul. cbn [fst snd]. ring.
Qed.
Lemma cabs_cscale r x : cabs (cscale r x) = Rabs r * cabs x.
Proof.
  apply cabs_eq; [apply Rmult_le_pos; [apply Rabs_pos|apply cabs_nonneg]|]. replace (Rabs r * cabs x * (Rabs r * cabs x)) with ((Rabs r * Rabs r) * (cabs x * cabs x)) by ring.
  rewrite cabs_sq. replace (Rabs r * Rabs r) with (r * r) by (pose proof (Rsqr_abs r) as E; unfold Rsqr in E; exact E). unfold cscale. cbn [fst snd]. ring.
Qed.
Lemma cabs_add x y : cabs (cadd x y) <= cabs x + cabs y.
Proof.
  pose proof (cabs_nonneg x) as X0. pose proof (cabs_nonneg y) as Y0. apply cabs_le; [lra|].
  assert (CS : fst x * fst y + snd x * snd y <= cabs x * cabs y).
  { apply Rsqr_incr_0_var; [|apply Rmult_le_pos; assumption]. unfold Rsqr. replace (cabs x * cabs y * (cabs x * cabs y)) with ((cabs x * cabs x) * (cabs y * cabs y)) by ring. rewrite !cabs_sq.
    pose proof (sq_nonneg (fst x * snd y - snd x * fst y)) as S. nra. }
  replace ((cabs x + cabs y) * (cabs x + cabs y)) with (cabs x * cabs x + cabs y * cabs y + 2 * (cabs x * cabs y)) by ring. rewrite !cabs_sq. unfold cadd. cbn [fst snd]. nra.
Qed.
Lemma cabs_opp x : cabs (copp x) = cabs x.
Proof. unfold cabs, copp. cbn [fst snd]. f_equal. ring. Qed.
Lemma cabs_conj x : cabs (cconj x) = cabs x.
Proof. unfold cabs, cconj. cbn [fst snd]. f_equal. ring. Qed.
Lemma csub_opp x y : csub x y = cadd x (copp y). Proof. unfold csub, cadd, copp. cbn [fst snd]. f_equal; ring. Qed.
Lemma cabs_sub x y : cabs (csub x y) <= cabs x + cabs y.
Proof. rewrite csub_opp. eapply Rle_trans; [apply cabs_add|]. rewrite cabs_opp. lra. Qed.
Lemma cabs_tri x y z : cabs (csub x z) <= cabs (csub x y) + cabs (csub y z).
Proof. replace (csub x z) with (cadd (csub x y) (csub y z)) by (unfold csub, cadd; cbn [fst snd]; f_equal; ring). apply cabs_add. Qed.
Lemma cabs_near x z mu eps : cabs (csub x z) <= eps -> cabs z <= mu -> cabs x <= mu + eps.
Proof. intros H1 H2. replace x with (cadd (csub x z) z) by (destruct x, z; unfold csub, cadd; cbn [fst snd]; f_equal; ring). eapply Rle_trans; [apply cabs_add|]. lra. Qed.

(** *** slots *)
Section Slots.
  Context {N : nat} (NP : (0 < N)%nat).
  Notation P := (Negacyclic.R N).
  Lemma slot_add (a b : P) j : ckks_slot (add a b) j = cadd (ckks_slot a j) (ckks_slot b j).
  Proof using NP. rewrite <- !slot_ckks by exact NP. unfold slot. apply (evalp_add _ _ _ _ _ _ _ eq_equivalence CC_ext CC_ring). Qed.
  Lemma slot_smul (c : Z) (a : P) j : ckks_slot (smul c a) j = cscale (IZR c) (ckks_slot a j).
  Proof using NP.
    rewrite <- !slot_ckks by exact NP. unfold slot. rewrite (evalp_smul _ _ _ _ _ _ _ eq_equivalence CC_ext CC_ring). rewrite cofZ_val. unfold cmul, cscale. cbn [fst snd]. f_equal; ring.
  Qed.
  Lemma slot_mul (a b : P) j : ckks_slot (mul a b) j = cmul (ckks_slot a j) (ckks_slot b j).
  Proof using NP.
    rewrite <- !slot_ckks by exact NP. unfold slot. apply (evalp_mul _ _ _ _ _ _ _ eq_equivalence CC_ext CC_ring); [exact NP|].
    apply (root_pow (0, 0) (1, 0) cadd cmul csub copp eq eq_equivalence CC_ext CC_ring); [apply cis_root; exact NP|apply odd5].
  Qed.
  Lemma slot_sub (a b : P) j : ckks_slot (sub a b) j = csub (ckks_slot a j) (ckks_slot b j).
  Proof using NP.
    replace (sub a b) with (add a (smul (-1) b)) by (apply R_ext; intros i Hi; rewrite co_add, co_smul, co_sub; ring).
    rewrite slot_add, slot_smul. unfold cscale, cadd, csub. cbn [fst snd]. f_equal; ring.
  Qed.
  (** every slot of a polynomial with coefficients at most B has absolute value at most N B *)
  Lemma slot_bound (a : P) (B : Z) j : bnd a B -> cabs (ckks_slot a j) <= INR N * IZR B.
  Proof using NP.
    intros HB. unfold ckks_slot, val_re, val_im. set (t := angle N j). clearbody t.
    assert (X : forall n, (n <= N)%nat -> cabs (rsum n (fun i => IZR (co a i) * cos (INR i * t)), rsum n (fun i => IZR (co a i) * sin (INR i * t))) <= INR n * IZR B).
    { induction n as [|n IH]; intros Hn.
      - cbn [rsum INR]. rewrite Rmult_0_l. apply cabs_le; [lra|]. cbn [fst snd]. lra.
      - cbn [rsum]. rewrite S_INR. set (x := rsum n (fun i => IZR (co a i) * cos (INR i * t))) in *. set (y := rsum n (fun i => IZR (co a i) * sin (INR i * t))) in *.
        replace (x + IZR (co a n) * cos (INR n * t), y + IZR (co a n) * sin (INR n * t)) with (cadd (x, y) (cscale (IZR (co a n)) (cis (INR n * t)))) by reflexivity.
        eapply Rle_trans; [apply cabs_add|]. rewrite cabs_cscale.
        assert (C1 : cabs (cis (INR n * t)) = 1). { apply cabs_eq; [lra|]. unfold cis. cbn [fst snd]. pose proof (sin2_cos2 (INR n * t)) as S. unfold Rsqr in S. lra. }
        rewrite C1, Rmult_1_r. specialize (IH ltac:(lia)). pose proof (HB n ltac:(lia)) as BN. apply IZR_le in BN. rewrite abs_IZR in BN. lra. }
    apply X. apply le_n.
  Qed.
End Slots.

(** *** m with scale sg is an approximation of the slot vector z: every slot of m / sg is within eps of z, and |z| <= mu *)
Definition near {N : nat} (m : Negacyclic.R N) (sg : R) (z : nat -> CC) (mu eps : R) : Prop :=
  forall j, (j < N / 2)%nat -> cabs (csub (cscale (/ sg) (ckks_slot m j)) (z j)) <= eps /\ cabs (z j) <= mu.

Lemma cscale_cadd r x y : cscale r (cadd x y) = cadd (cscale r x) (cscale r y). Proof. unfold cscale, cadd. cbn [fst snd]. f_equal; ring. Qed.
Lemma cscale_csub r x y : cscale r (csub x y) = csub (cscale r x) (cscale r y). Proof. unfold cscale, csub. cbn [fst snd]. f_equal; ring. Qed.
Lemma cscale_comp r q x : cscale r (cscale q x) = cscale (r * q) x. Proof. unfold cscale. cbn [fst snd]. f_equal; ring. Qed.
Lemma cscale_1 x : cscale 1 x = x. Proof. destruct x. unfold cscale. cbn [fst snd]. f_equal; ring. Qed.
Lemma cscale_cmul r q x y : cmul (cscale r x) (cscale q y) = cscale (r * q) (cmul x y). Proof. unfold cscale, cmul. cbn [fst snd]. f_equal; ring. Qed.
Lemma cconj_cscale r x : cconj (cscale r x) = cscale r (cconj x). Proof. unfold cscale, cconj. cbn [fst snd]. f_equal; ring. Qed.
Lemma cconj_csub x y : cconj (csub x y) = csub (cconj x) (cconj y). Proof. unfold csub, cconj. cbn [fst snd]. f_equal; ring. Qed.

(** scaling an approximation by f: distance to z *)
Lemma scaled_near f x z mu eps : cabs (csub x z) <= eps -> cabs z <= mu -> cabs (csub (cscale f x) z) <= eps + Rabs (f - 1) * (mu + eps).
Proof.
  intros H1 H2. eapply Rle_trans; [apply (cabs_tri _ x)|]. replace (csub (cscale f x) x) with (cscale (f - 1) x) by (destruct x; unfold csub, cscale; cbn [fst snd]; f_equal; ring).
  rewrite cabs_cscale. pose proof (cabs_near x z mu eps H1 H2). pose proof (Rmult_le_compat_l _ _ _ (Rabs_pos (f - 1)) H). lra.
Qed.
Lemma mul_near x0 x1 z0 z1 mu0 mu1 e0 e1 : cabs (csub x0 z0) <= e0 -> cabs z0 <= mu0 -> cabs (csub x1 z1) <= e1 -> cabs z1 <= mu1 ->
  cabs (csub (cmul x0 x1) (cmul z0 z1)) <= mu0 * e1 + mu1 * e0 + e0 * e1.
Proof.
  intros A0 B0 A1 B1. replace (csub (cmul x0 x1) (cmul z0 z1)) with (cadd (cadd (cmul z0 (csub x1 z1)) (cmul z1 (csub x0 z0))) (cmul (csub x0 z0) (csub x1 z1)))
    by (destruct x0, x1, z0, z1; unfold csub, cadd, cmul; cbn [fst snd]; f_equal; ring).
  eapply Rle_trans; [apply cabs_add|]. pose proof (cabs_add (cmul z0 (csub x1 z1)) (cmul z1 (csub x0 z0))) as T. rewrite !cabs_mul in *.
  pose proof (cabs_nonneg (csub x0 z0)). pose proof (cabs_nonneg (csub x1 z1)). pose proof (cabs_nonneg z0). pose proof (cabs_nonneg z1).
  assert (cabs z0 * cabs (csub x1 z1) <= mu0 * e1) by (apply Rmult_le_compat; assumption).
  assert (cabs z1 * cabs (csub x0 z0) <= mu1 * e0) by (apply Rmult_le_compat; assumption).
  assert (cabs (csub x0 z0) * cabs (csub x1 z1) <= e0 * e1) by (apply Rmult_le_compat; assumption). lra.
Qed.
Lemma cabs_cmul_le z0 z1 mu0 mu1 : cabs z0 <= mu0 -> cabs z1 <= mu1 -> cabs (cmul z0 z1) <= mu0 * mu1.
Proof. intros. rewrite cabs_mul. apply Rmult_le_compat; try apply cabs_nonneg; assumption. Qed.

Section Near.
  Context {N : nat} (NP : (0 < N)%nat).
  Notation P := (Negacyclic.R N).
  (** K0 m0 + K1 m1 with the scale sg, where K_i sg_i is close to sg *)
  Lemma near_add (K0 K1 : Z) (m0 m1 : P) s0 s1 sg z0 z1 mu0 mu1 e0 e1 : 0 < s0 -> 0 < s1 -> 0 < sg -> near m0 s0 z0 mu0 e0 -> near m1 s1 z1 mu1 e1 ->
    near (add (smul K0 m0) (smul K1 m1)) sg (fun j => cadd (z0 j) (z1 j)) (mu0 + mu1) ((e0 + Rabs (IZR K0 * s0 / sg - 1) * (mu0 + e0)) + (e1 + Rabs (IZR K1 * s1 / sg - 1) * (mu1 + e1))).
  Proof using NP.
    intros P0 P1 PS H0 H1 j Hj. destruct (H0 j Hj) as [A0 B0], (H1 j Hj) as [A1 B1]. split; [|eapply Rle_trans; [apply cabs_add|]; lra].
    rewrite slot_add, !slot_smul by exact NP. rewrite cscale_cadd, !cscale_comp.
    replace (/ sg * IZR K0) with (IZR K0 * s0 / sg * / s0) by (field; lra). replace (/ sg * IZR K1) with (IZR K1 * s1 / sg * / s1) by (field; lra). rewrite <- !(cscale_comp _ (/ _)).
    set (x0 := cscale (/ s0) (ckks_slot m0 j)) in *. set (x1 := cscale (/ s1) (ckks_slot m1 j)) in *.
    set (f0 := IZR K0 * s0 / sg). set (f1 := IZR K1 * s1 / sg).
    replace (csub (cadd (cscale f0 x0) (cscale f1 x1)) (cadd (z0 j) (z1 j))) with (cadd (csub (cscale f0 x0) (z0 j)) (csub (cscale f1 x1) (z1 j))) by (unfold cadd, csub; cbn [fst snd]; f_equal; ring).
    eapply Rle_trans; [apply cabs_add|]. apply Rplus_le_compat; apply scaled_near; assumption.
  Qed.
  Lemma near_sub (K0 K1 : Z) (m0 m1 : P) s0 s1 sg z0 z1 mu0 mu1 e0 e1 : 0 < s0 -> 0 < s1 -> 0 < sg -> near m0 s0 z0 mu0 e0 -> near m1 s1 z1 mu1 e1 ->
    near (sub (smul K0 m0) (smul K1 m1)) sg (fun j => csub (z0 j) (z1 j)) (mu0 + mu1) ((e0 + Rabs (IZR K0 * s0 / sg - 1) * (mu0 + e0)) + (e1 + Rabs (IZR K1 * s1 / sg - 1) * (mu1 + e1))).
  Proof using NP.
    intros P0 P1 PS H0 H1 j Hj. destruct (H0 j Hj) as [A0 B0], (H1 j Hj) as [A1 B1]. split; [|eapply Rle_trans; [apply cabs_sub|]; lra].
    rewrite slot_sub, !slot_smul by exact NP. rewrite cscale_csub, !cscale_comp.
    replace (/ sg * IZR K0) with (IZR K0 * s0 / sg * / s0) by (field; lra). replace (/ sg * IZR K1) with (IZR K1 * s1 / sg * / s1) by (field; lra). rewrite <- !(cscale_comp _ (/ _)).
    set (x0 := cscale (/ s0) (ckks_slot m0 j)) in *. set (x1 := cscale (/ s1) (ckks_slot m1 j)) in *.
    set (f0 := IZR K0 * s0 / sg). set (f1 := IZR K1 * s1 / sg).
    replace (csub (csub (cscale f0 x0) (cscale f1 x1)) (csub (z0 j) (z1 j))) with (csub (csub (cscale f0 x0) (z0 j)) (csub (cscale f1 x1) (z1 j))) by (unfold csub; cbn [fst snd]; f_equal; ring).
    eapply Rle_trans; [apply cabs_sub|]. apply Rplus_le_compat; apply scaled_near; assumption.
  Qed.
  (** 2 D m = 2 m0 m1 + E *)
  Lemma near_mul (D e2 : Z) (m0 m1 m E : P) s0 s1 sg z0 z1 mu0 mu1 e0 e1 : (0 < D)%Z -> 0 < s0 -> 0 < s1 -> 0 < sg -> near m0 s0 z0 mu0 e0 -> near m1 s1 z1 mu1 e1 ->
    smul (2 * D) m = add (smul 2 (mul m0 m1)) E -> bnd E e2 ->
    near m sg (fun j => cmul (z0 j) (z1 j)) (mu0 * mu1)
      ((mu0 * e1 + mu1 * e0 + e0 * e1) + Rabs (s0 * s1 / (IZR D * sg) - 1) * (mu0 * mu1 + (mu0 * e1 + mu1 * e0 + e0 * e1)) + INR N * IZR e2 / (2 * IZR D * sg)).
  Proof using NP.
    intros PD P0 P1 PS H0 H1 EQ BE j Hj. destruct (H0 j Hj) as [A0 B0], (H1 j Hj) as [A1 B1]. split; [|apply cabs_cmul_le; assumption].
    apply IZR_lt in PD. apply (f_equal (fun r => ckks_slot r j)) in EQ. rewrite slot_add, !slot_smul, slot_mul in EQ by exact NP. rewrite mult_IZR in EQ.
    pose proof (slot_bound NP E e2 j BE) as SB. set (y := ckks_slot E j) in *. set (x := ckks_slot m j) in *.
    set (x0 := cscale (/ s0) (ckks_slot m0 j)) in *. set (x1 := cscale (/ s1) (ckks_slot m1 j)) in *.
    assert (XM : cscale (/ sg) x = cadd (cscale (s0 * s1 / (IZR D * sg)) (cmul x0 x1)) (cscale (/ (2 * IZR D * sg)) y)).
    { unfold x0, x1. rewrite cscale_cmul, cscale_comp.
      replace (cscale (/ sg) x) with (cscale (/ (2 * IZR D * sg)) (cscale (2 * IZR D) x)) by (rewrite cscale_comp; f_equal; field; lra).
      rewrite EQ, cscale_cadd, cscale_comp. f_equal. f_equal. field. lra. }
    rewrite XM. set (f := s0 * s1 / (IZR D * sg)). set (p := cmul x0 x1).
    replace (csub (cadd (cscale f p) (cscale (/ (2 * IZR D * sg)) y)) (cmul (z0 j) (z1 j))) with (cadd (csub (cscale f p) (cmul (z0 j) (z1 j))) (cscale (/ (2 * IZR D * sg)) y))
      by (unfold cadd, csub; cbn [fst snd]; f_equal; ring).
    eapply Rle_trans; [apply cabs_add|]. apply Rplus_le_compat.
    - apply scaled_near; [apply mul_near; assumption|apply cabs_cmul_le; assumption].
    - rewrite cabs_cscale. assert (0 < / (2 * IZR D * sg)) by (apply Rinv_0_lt_compat; apply Rmult_lt_0_compat; lra). rewrite Rabs_right by lra. unfold Rdiv. rewrite (Rmult_comm (INR N * IZR e2)).
      apply Rmult_le_compat_l; lra.
  Qed.
  Lemma near_plus (m E : P) sg z mu e (n : Z) : 0 < sg -> near m sg z mu e -> bnd E n -> near (add m E) sg z mu (e + INR N * IZR n / sg).
  Proof using NP.
    intros PS H BE j Hj. destruct (H j Hj) as [A B]. split; [|exact B]. rewrite slot_add by exact NP. rewrite cscale_cadd.
    replace (csub (cadd (cscale (/ sg) (ckks_slot m j)) (cscale (/ sg) (ckks_slot E j))) (z j)) with (cadd (csub (cscale (/ sg) (ckks_slot m j)) (z j)) (cscale (/ sg) (ckks_slot E j))) by (unfold cadd, csub; cbn [fst snd]; f_equal; ring).
    eapply Rle_trans; [apply cabs_add|]. apply Rplus_le_compat; [exact A|]. rewrite cabs_cscale. pose proof (slot_bound NP E n j BE).
    assert (0 < / sg) by (apply Rinv_0_lt_compat; lra). rewrite Rabs_right by lra. unfold Rdiv. rewrite (Rmult_comm (INR N * IZR n)). apply Rmult_le_compat_l; lra.
  Qed.
  Lemma near_rot (m : P) (k : nat) sg z mu e : pow2 N -> (2 <= N)%nat -> near m sg z mu e -> near (galois (5 ^ Z.of_nat k) m) sg (fun j => z ((j + k) mod (N / 2))%nat) mu e.
  Proof using.
    clear NP. intros P2 N2 H j Hj. rewrite C25_ckks_rotate by assumption. apply H. apply Nat.mod_upper_bound. intros Z0. apply Nat.div_small_iff in Z0; lia.
  Qed.
  Lemma near_conj (m : P) sg z mu e : near m sg z mu e -> near (galois (-1) m) sg (fun j => cconj (z j)) mu e.
  Proof using NP.
    intros H j Hj. rewrite C25_ckks_conjugate by exact NP. destruct (H j Hj) as [A B]. split; [|rewrite cabs_conj; exact B].
    change (fst (ckks_slot m j), - snd (ckks_slot m j)) with (cconj (ckks_slot m j)). rewrite <- cconj_cscale, <- cconj_csub, cabs_conj. exact A.
  Qed.
  Lemma near_mono (m : P) sg z mu e mu' e' : mu <= mu' -> e <= e' -> near m sg z mu e -> near m sg z mu' e'.
  Proof using. intros H1 H2 H j Hj. destruct (H j Hj). split; lra. Qed.
End Near.
