(** The N/2 slots of a CKKS plaintext polynomial determine it: small slots mean small coefficients, equal slots mean equal polynomials. *)
From Verif Require Import Base NumTheory Negacyclic Ntt Galois Slots PropsSlots CkksSlots.
From Coq Require Import Reals Znumtheory Lra.
Open Scope R_scope.

Lemma rsum_ext' n f g : (forall i, (i < n)%nat -> f i = g i) -> rsum n f = rsum n g.
Proof. induction n as [|n IH]; intros H; cbn [rsum]; [reflexivity|]. rewrite IH by (intros i Hi; apply H; lia). rewrite H by lia. reflexivity. Qed.
Lemma rsum_plus n f g : rsum n (fun i => f i + g i) = rsum n f + rsum n g.
Proof. induction n as [|n IH]; cbn [rsum]; [ring|]. rewrite IH. ring. Qed.
Lemma rsum_scal n c f : rsum n (fun i => c * f i) = c * rsum n f.
Proof. induction n as [|n IH]; cbn [rsum]; [ring|]. rewrite IH. ring. Qed.
Lemma rsum_zero n : rsum n (fun _ => 0) = 0.
Proof. induction n as [|n IH]; cbn [rsum]; [reflexivity|]. rewrite IH. ring. Qed.
Lemma rsum_const n c : rsum n (fun _ => c) = INR n * c.
Proof. induction n as [|n IH]; [cbn; ring|]. cbn [rsum]. rewrite IH, S_INR. ring. Qed.
Lemma rsum_app n m f : rsum (n + m) f = rsum n f + rsum m (fun i => f (n + i)%nat).
Proof. induction m as [|m IH]; [rewrite Nat.add_0_r; cbn; ring|]. rewrite Nat.add_succ_r. cbn [rsum]. rewrite IH. ring. Qed.
Lemma rsum_swap n m (f : nat -> nat -> R) : rsum n (fun i => rsum m (f i)) = rsum m (fun j => rsum n (fun i => f i j)).
Proof. induction n as [|n IH]; cbn [rsum]; [symmetry; apply rsum_zero|]. rewrite IH, <- rsum_plus. reflexivity. Qed.
Lemma rsum_abs n f : Rabs (rsum n f) <= rsum n (fun i => Rabs (f i)).
Proof. induction n as [|n IH]; cbn [rsum]; [rewrite Rabs_R0; lra|]. eapply Rle_trans; [apply Rabs_triang|]. lra. Qed.
Lemma rsum_le n f g : (forall i, (i < n)%nat -> f i <= g i) -> rsum n f <= rsum n g.
Proof. induction n as [|n IH]; intros H; cbn [rsum]; [lra|]. pose proof (IH ltac:(intros i Hi; apply H; lia)). pose proof (H n ltac:(lia)). lra. Qed.
Lemma rsum_single n f k : (k < n)%nat -> (forall i, (i < n)%nat -> i <> k -> f i = 0) -> rsum n f = f k.
Proof.
  induction n as [|n IH]; intros Hk H; [lia|]. cbn [rsum]. destruct (Nat.eq_dec k n) as [->|NE].
  - rewrite (rsum_ext' n f (fun _ => 0)) by (intros i Hi; apply H; lia). rewrite rsum_zero. ring.
  - rewrite IH by (try lia; intros i Hi NI; apply H; lia). rewrite (H n) by lia. ring.
Qed.

(** 5^(2^k) = 1 + 2^(k+2) times an odd number *)
Lemma five_odd k : exists u, (5 ^ (2 ^ Z.of_nat k) = 1 + 2 ^ (Z.of_nat k + 2) * (2 * u + 1))%Z.
Proof.
  induction k as [|k [u IH]]; [exists 0%Z; reflexivity|].
  rewrite Nat2Z.inj_succ, Z.pow_succ_r by lia. rewrite Z.mul_comm, Z.pow_mul_r by lia. rewrite IH. rewrite !Z.pow_add_r, Z.pow_succ_r by lia. set (p := (2 ^ Z.of_nat k)%Z).
  exists (u + p * (2 * u + 1) * (2 * u + 1))%Z. ring.
Qed.
Lemma cos_shift x n : cos (x + IZR (2 * n) * PI) = cos x.
Proof.
  rewrite mult_IZR. assert (G : forall k x, cos (x + 2 * INR k * PI) = cos x) by (intros; apply cos_period).
  destruct (Z.le_ge_cases 0 n) as [H|H].
  - rewrite <- (Z2Nat.id n H), <- INR_IZR_INZ. apply G.
  - rewrite <- (G (Z.to_nat (- n)) (x + 2 * IZR n * PI)). f_equal. rewrite INR_IZR_INZ, Z2Nat.id, opp_IZR by lia. ring.
Qed.
Lemma cos_odd x n : cos (x + IZR (2 * n + 1) * PI) = - cos x.
Proof. rewrite <- (neg_cos x). rewrite <- (cos_shift (x + PI) n). f_equal. rewrite plus_IZR. ring. Qed.

(** the sum of the m-th powers of the roots exp(i pi 5^j / N), real parts *)
Lemma cos_sum k : forall m, (0 < Z.abs m < 2 ^ Z.of_nat (S k))%Z -> rsum (2 ^ k) (fun j => cos (IZR m * angle (2 ^ S k) j)) = 0.
Proof.
  induction k as [|k IH]; intros m Hm.
  - change (2 ^ Z.of_nat 1)%Z with 2%Z in Hm. cbn [Nat.pow rsum]. unfold angle. cbn [Z.of_nat Z.pow]. rewrite Rplus_0_l. assert (C : m = 1%Z \/ m = (-1)%Z) by lia.
    replace (INR (2 * 1)) with 2 by (cbn; ring). replace (PI * 1 / 2) with (PI / 2) by field. destruct C as [-> | ->]; [rewrite Rmult_1_l; apply cos_PI2|].
    replace (-1 * (PI / 2)) with (- (PI / 2)) by ring. rewrite cos_neg. apply cos_PI2.
  - set (H := (2 ^ k)%nat). replace (2 ^ S k)%nat with (H + H)%nat by (unfold H; cbn [Nat.pow]; lia). rewrite rsum_app.
    assert (HP : (0 < 2 ^ Z.of_nat k)%Z) by (apply Z.pow_pos_nonneg; lia).
    assert (NI : INR (2 ^ S (S k)) = 4 * IZR (2 ^ Z.of_nat k)).
    { rewrite INR_IZR_INZ, Nat2Z.inj_pow. change (Z.of_nat 2) with 2%Z. rewrite !Nat2Z.inj_succ, !Z.pow_succ_r by lia. rewrite !mult_IZR. ring. }
    assert (PR : 0 < IZR (2 ^ Z.of_nat k)) by (apply IZR_lt; exact HP).
    destruct (five_odd k) as [u FU].
    assert (SH : forall j, (5 ^ Z.of_nat (H + j) = 5 ^ Z.of_nat j + 2 ^ Z.of_nat (S (S k)) * (5 ^ Z.of_nat j * (2 * u + 1)))%Z).
    { intros j. rewrite Nat2Z.inj_add, Z.pow_add_r by lia. unfold H. rewrite Nat2Z.inj_pow. change (Z.of_nat 2) with 2%Z. rewrite FU. replace (Z.of_nat (S (S k))) with (Z.of_nat k + 2)%Z by lia. ring. }
    assert (O5 : forall j, exists v, (5 ^ Z.of_nat j = 2 * v + 1)%Z).
    { intros j. induction j as [|j [v IJ]]; [exists 0%Z; reflexivity|]. exists (5 * v + 2)%Z. rewrite Nat2Z.inj_succ, Z.pow_succ_r by lia. lia. }
    assert (AN : forall j, angle (2 ^ S (S k)) (H + j) = angle (2 ^ S (S k)) j + IZR (5 ^ Z.of_nat j * (2 * u + 1)) * PI).
    { intros j. unfold angle. rewrite SH, plus_IZR, (mult_IZR (2 ^ _)), NI. rewrite !Nat2Z.inj_succ, !Z.pow_succ_r by lia. rewrite !(mult_IZR 2). field. lra. }
    destruct (Z.Even_or_Odd m) as [[a ->]|[a ->]].
    + assert (ES : rsum H (fun i => cos (IZR (2 * a) * angle (2 ^ S (S k)) (H + i))) = rsum H (fun i => cos (IZR (2 * a) * angle (2 ^ S (S k)) i))).
      { apply rsum_ext'. intros j _. rewrite AN, Rmult_plus_distr_l, <- Rmult_assoc, <- mult_IZR. rewrite <- Z.mul_assoc. apply cos_shift. }
      rewrite ES. assert (E2 : rsum H (fun i => cos (IZR (2 * a) * angle (2 ^ S (S k)) i)) = 0).
      { rewrite <- (IH a). 2:{ rewrite !Nat2Z.inj_succ, !Z.pow_succ_r in * by lia. lia. }
        apply rsum_ext'. intros j _. f_equal. unfold angle. rewrite NI.
        assert (N2 : INR (2 ^ S k) = 2 * IZR (2 ^ Z.of_nat k)) by (rewrite INR_IZR_INZ, Nat2Z.inj_pow; change (Z.of_nat 2) with 2%Z; rewrite Nat2Z.inj_succ, Z.pow_succ_r by lia; rewrite mult_IZR; reflexivity).
        rewrite N2, mult_IZR. field. lra. }
      rewrite E2. ring.
    + assert (ES : rsum H (fun i => cos (IZR (2 * a + 1) * angle (2 ^ S (S k)) (H + i))) = rsum H (fun i => -1 * cos (IZR (2 * a + 1) * angle (2 ^ S (S k)) i))).
      { apply rsum_ext'. intros j _. rewrite AN, Rmult_plus_distr_l, <- Rmult_assoc, <- mult_IZR. destruct (O5 j) as [v Ev]. rewrite Ev.
        replace ((2 * a + 1) * ((2 * v + 1) * (2 * u + 1)))%Z with (2 * (a * (2 * v + 1) * (2 * u + 1) + (2 * u * v + u + v)) + 1)%Z by ring. rewrite cos_odd. ring. }
      rewrite ES, rsum_scal. ring.
Qed.

Section Norm.
  Context {N : nat} (P2 : pow2 N) (N2 : (2 <= N)%nat).
  Notation P := (Negacyclic.R N).

  (** the inverse of the slot map *)
  Lemma slot_inverse (a : P) i : (i < N)%nat ->
    INR (N / 2) * IZR (co a i) = rsum (N / 2) (fun j => fst (ckks_slot a j) * cos (INR i * angle N j) + snd (ckks_slot a j) * sin (INR i * angle N j)).
  Proof.
    intros Hi. destruct P2 as [[|k] EL]; [cbn in EL; lia|]. assert (EH : (N / 2 = 2 ^ k)%nat) by (rewrite EL; cbn [Nat.pow]; rewrite Nat.mul_comm; apply Nat.div_mul; lia).
    rewrite (rsum_ext' (N / 2) _ (fun j => rsum N (fun l => IZR (co a l) * cos (IZR (Z.of_nat l - Z.of_nat i) * angle N j)))).
    - rewrite rsum_swap. rewrite (rsum_single N _ i Hi).
      + rewrite rsum_scal, (rsum_ext' _ _ (fun _ => 1)); [rewrite rsum_const; ring|]. intros j _. rewrite Z.sub_diag, Rmult_0_l. apply cos_0.
      + intros l Hl NE. rewrite rsum_scal, EH. assert (CS := cos_sum k (Z.of_nat l - Z.of_nat i)). rewrite <- EL, <- (pow2_Z N (S k) EL) in CS. rewrite CS by lia. ring.
    - intros j _. unfold ckks_slot, val_re, val_im. cbn [fst snd]. rewrite (Rmult_comm (rsum _ _) (cos _)), (Rmult_comm (rsum _ _) (sin _)), <- !rsum_scal, <- rsum_plus. apply rsum_ext'. intros l _.
      rewrite minus_IZR, <- !INR_IZR_INZ, Rmult_minus_distr_r, cos_minus. ring.
  Qed.

  (** small slots, small coefficients *)
  Theorem slot_coeff (a : P) (A : R) i : (forall j, (j < N / 2)%nat -> cabs (ckks_slot a j) <= A) -> (i < N)%nat -> Rabs (IZR (co a i)) <= A.
  Proof.
    intros H Hi. assert (HP : 0 < INR (N / 2)) by (apply lt_0_INR; apply Nat.div_str_pos; lia).
    apply Rmult_le_reg_l with (INR (N / 2)); [exact HP|]. rewrite <- (Rabs_right (INR (N / 2))) at 1 by lra. rewrite <- Rabs_mult, (slot_inverse a i Hi).
    eapply Rle_trans; [apply rsum_abs|]. rewrite <- rsum_const. apply rsum_le. intros j Hj. specialize (H j Hj).
    eapply Rle_trans; [|exact H]. set (x := fst (ckks_slot a j)). set (y := snd (ckks_slot a j)). set (t := INR i * angle N j).
    apply Rsqr_incr_0_var; [|apply cabs_nonneg]. rewrite <- Rsqr_abs. unfold Rsqr. rewrite cabs_sq. fold x y.
    pose proof (sin2_cos2 t) as T. unfold Rsqr in T. pose proof (Rle_0_sqr (x * sin t - y * cos t)) as Q. unfold Rsqr in Q.
    set (s := sin t) in *. set (c := cos t) in *. replace (x * x + y * y) with ((x * x + y * y) * (s * s + c * c)) by (rewrite T; ring). lra.
  Qed.

  Corollary slot_bnd (a : P) (A : R) (M : Z) : (forall j, (j < N / 2)%nat -> cabs (ckks_slot a j) <= A) -> A < IZR (M + 1) -> bnd a M.
  Proof.
    intros H HM i Hi. pose proof (slot_coeff a A i H Hi) as X. rewrite <- abs_IZR in X. assert (Y : (Z.abs (co a i) < M + 1)%Z) by (apply lt_IZR; lra). lia.
  Qed.
  Corollary near_bnd (m : P) sg z mu eps (M : Z) : 0 < sg -> near m sg z mu eps -> sg * (mu + eps) < IZR (M + 1) -> bnd m M.
  Proof.
    intros HS H HM. apply (slot_bnd m (sg * (mu + eps)) M); [|exact HM]. intros j Hj. destruct (H j Hj) as [A B].
    pose proof (cabs_near _ _ _ _ A B) as X. rewrite cabs_cscale, Rabs_right in X by (apply Rle_ge, Rlt_le, Rinv_0_lt_compat; exact HS).
    apply Rmult_le_reg_l with (/ sg); [apply Rinv_0_lt_compat; exact HS|]. rewrite <- Rmult_assoc, Rinv_l, Rmult_1_l by lra. exact X.
  Qed.
End Norm.

(** C25: a plaintext polynomial is at most as large as its slots, and the N/2 slots determine it. *)
Theorem C25_small_slots : forall N (a : Negacyclic.R N) (A : R) i, pow2 N -> (2 <= N)%nat -> (forall j, (j < N / 2)%nat -> cabs (ckks_slot a j) <= A) -> (i < N)%nat -> Rabs (IZR (co a i)) <= A.
Proof. intros N a A i P2 N2 H Hi. exact (slot_coeff P2 N2 a A i H Hi). Qed.
Print Assumptions C25_small_slots.
Theorem C25_slots_determine : forall N (a b : Negacyclic.R N), pow2 N -> (2 <= N)%nat -> (forall j, (j < N / 2)%nat -> ckks_slot a j = ckks_slot b j) -> a = b.
Proof.
  intros N a b P2 N2 H. apply R_ext. intros i Hi.
  assert (X : INR (N / 2) * IZR (co a i) = INR (N / 2) * IZR (co b i)).
  { rewrite (slot_inverse P2 N2 a i Hi), (slot_inverse P2 N2 b i Hi). apply rsum_ext'. intros j Hj. rewrite (H j Hj). reflexivity. }
  apply Rmult_eq_reg_l in X; [apply eq_IZR; exact X|]. apply not_0_INR. assert (0 < N / 2)%nat by (apply Nat.div_str_pos; lia). lia.
Qed.
Print Assumptions C25_slots_determine.
(** a polynomial whose slots are bounded by 3, and a bound that it attains *)
Example C25_small_slots_nonvacuous : forall j, (j < 8 / 2)%nat -> cabs (ckks_slot (mkR (fun i => if (i =? 0)%nat then 3 else 0)%Z : Negacyclic.R 8) j) <= 3.
Proof.
  intros j _. unfold ckks_slot, val_re, val_im. cbn [rsum]. rewrite !co_mkR by lia. cbn [Nat.eqb]. cbn [INR]. rewrite !Rmult_0_l, cos_0, sin_0.
  apply cabs_le; [lra|]. cbn [fst snd]. lra.
Qed.
