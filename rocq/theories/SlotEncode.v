(** Every vector of N/2 complex numbers is the slot vector of an integer polynomial, up to the rounding of its coefficients: the hypothesis "encoded" of C48 and C52 can be met for every message. *)
From Verif Require Import Base NumTheory Negacyclic Ntt Galois Slots PropsSlots CkksSlots SlotNorm.
From Coq Require Import Reals Znumtheory Zpow_facts Lra.
Open Scope R_scope.

(** 5 has order 2^k modulo 2^(k+2) *)
Lemma five_mod8 d : exists v, (5 ^ Z.of_nat d = 4 * v + 1)%Z.
Proof. induction d as [|d [v IH]]; [exists 0%Z; reflexivity|]. exists (5 * v + 1)%Z. rewrite Nat2Z.inj_succ, Z.pow_succ_r by lia. lia. Qed.
Lemma five_odd8 e : exists v, (5 ^ Z.of_nat (2 * e + 1) = 8 * v + 5)%Z.
Proof.
  induction e as [|e [v IH]]; [exists 0%Z; reflexivity|]. exists (25 * v + 15)%Z. replace (Z.of_nat (2 * S e + 1)) with (Z.of_nat (2 * e + 1) + 2)%Z by lia. rewrite Z.pow_add_r, IH by lia. change (5 ^ 2)%Z with 25%Z. ring.
Qed.
Lemma five_order k : forall d, (0 < d < 2 ^ k)%nat -> ~ (2 ^ Z.of_nat (k + 2) | 5 ^ Z.of_nat d - 1)%Z.
Proof.
  induction k as [|k IH]; intros d Hd H; [cbn in Hd; lia|].
  destruct (Nat.Even_or_Odd d) as [[e ->]|[e ->]].
  - apply (IH e); [cbn [Nat.pow] in Hd; lia|]. destruct (five_mod8 e) as [v Ev]. set (x := (5 ^ Z.of_nat e)%Z) in *.
    assert (E : (5 ^ Z.of_nat (2 * e) - 1 = 2 * ((2 * v + 1) * (x - 1)))%Z) by (replace (Z.of_nat (2 * e)) with (Z.of_nat e + Z.of_nat e)%Z by lia; rewrite Z.pow_add_r by lia; fold x; rewrite Ev; ring).
    rewrite E in H. replace (S k + 2)%nat with (S (k + 2)) in H by lia. rewrite Nat2Z.inj_succ, Z.pow_succ_r in H by lia. apply Z.mul_divide_cancel_l in H; [|lia]. apply Gauss with (2 * v + 1)%Z; [exact H|].
    apply rel_prime_sym. apply rel_prime_Zpower_r; [lia|]. apply Zgcd_1_rel_prime. apply Z.bezout_1_gcd. exists 1%Z, (-v)%Z. ring.
  - destruct (five_odd8 e) as [v Ev]. rewrite Ev in H. destruct H as [w H]. replace (Z.of_nat (S k + 2)) with (3 + Z.of_nat k)%Z in H by lia. rewrite Z.pow_add_r in H by lia. change (2 ^ 3)%Z with 8%Z in H. set (y := (2 ^ Z.of_nat k)%Z) in *. lia.
Qed.
Lemma five_distinct k i j : (i < 2 ^ k)%nat -> (j < 2 ^ k)%nat -> i <> j -> ~ (2 ^ Z.of_nat (k + 2) | 5 ^ Z.of_nat i - 5 ^ Z.of_nat j)%Z.
Proof.
  assert (G : forall i j, (i < 2 ^ k)%nat -> (j < i)%nat -> ~ (2 ^ Z.of_nat (k + 2) | 5 ^ Z.of_nat i - 5 ^ Z.of_nat j)%Z).
  { clear i j. intros i j Hi Hj H. apply (five_order k (i - j)); [lia|]. destruct (five_mod8 j) as [v Ev].
    replace (5 ^ Z.of_nat i - 5 ^ Z.of_nat j)%Z with (5 ^ Z.of_nat j * (5 ^ Z.of_nat (i - j) - 1))%Z in H.
    - apply Gauss with (5 ^ Z.of_nat j)%Z; [exact H|]. apply rel_prime_sym. apply rel_prime_Zpower_r; [lia|]. rewrite Ev. apply Zgcd_1_rel_prime. apply Z.bezout_1_gcd. exists 1%Z, (- 2 * v)%Z. ring.
    - replace (Z.of_nat i) with (Z.of_nat j + Z.of_nat (i - j))%Z by lia. rewrite Z.pow_add_r by lia. ring. }
  intros Hi Hj NE H. destruct (Nat.lt_ge_cases j i) as [L|L]; [apply (G i j Hi L H)|]. apply (G j i Hj ltac:(lia)). apply Z.divide_opp_r in H. replace (5 ^ Z.of_nat j - 5 ^ Z.of_nat i)%Z with (- (5 ^ Z.of_nat i - 5 ^ Z.of_nat j))%Z by ring. exact H.
Qed.
Lemma five_sum k i j : ~ (2 ^ Z.of_nat (k + 2) | 5 ^ Z.of_nat i + 5 ^ Z.of_nat j)%Z.
Proof.
  intros [w H]. destruct (five_mod8 i) as [a Ea]. destruct (five_mod8 j) as [b Eb]. rewrite Ea, Eb in H. replace (Z.of_nat (k + 2)) with (2 + Z.of_nat k)%Z in H by lia. rewrite Z.pow_add_r in H by lia. change (2 ^ 2)%Z with 4%Z in H. set (y := (2 ^ Z.of_nat k)%Z) in *. lia.
Qed.

(** geometric sums *)
Lemma cos_tele n x : 2 * sin (x / 2) * rsum n (fun i => cos (INR i * x)) = sin ((INR n - 1 / 2) * x) + sin (x / 2).
Proof.
  induction n as [|n IH]; [cbn [rsum INR]; replace ((0 - 1 / 2) * x) with (- (x / 2)) by field; rewrite sin_neg; ring|].
  cbn [rsum]. rewrite Rmult_plus_distr_l, IH, S_INR. set (t := INR n * x).
  replace ((INR n - 1 / 2) * x) with (t - x / 2) by (unfold t; field). replace ((INR n + 1 - 1 / 2) * x) with (t + x / 2) by (unfold t; field). rewrite sin_minus, sin_plus. ring.
Qed.
Lemma sin_tele n x : 2 * sin (x / 2) * rsum n (fun i => sin (INR i * x)) = cos (x / 2) - cos ((INR n - 1 / 2) * x).
Proof.
  induction n as [|n IH]; [cbn [rsum INR]; replace ((0 - 1 / 2) * x) with (- (x / 2)) by field; rewrite cos_neg; ring|].
  cbn [rsum]. rewrite Rmult_plus_distr_l, IH, S_INR. set (t := INR n * x).
  replace ((INR n - 1 / 2) * x) with (t - x / 2) by (unfold t; field). replace ((INR n + 1 - 1 / 2) * x) with (t + x / 2) by (unfold t; field). rewrite cos_minus, cos_plus. ring.
Qed.
Lemma sin_shift x n : sin (x + IZR (2 * n) * PI) = sin x.
Proof.
  rewrite mult_IZR. assert (G : forall k x, sin (x + 2 * INR k * PI) = sin x) by (intros; apply sin_period).
  destruct (Z.le_ge_cases 0 n) as [H|H].
  - rewrite <- (Z2Nat.id n H), <- INR_IZR_INZ. apply G.
  - rewrite <- (G (Z.to_nat (- n)) (x + 2 * IZR n * PI)). f_equal. rewrite INR_IZR_INZ, Z2Nat.id, opp_IZR by lia. ring.
Qed.

Lemma cos_shift2 x n : cos (x + IZR (2 * n) * PI) = cos x.
Proof.
  rewrite mult_IZR. assert (G : forall k x, cos (x + 2 * INR k * PI) = cos x) by (intros; apply cos_period).
  destruct (Z.le_ge_cases 0 n) as [H|H].
  - rewrite <- (Z2Nat.id n H), <- INR_IZR_INZ. apply G.
  - rewrite <- (G (Z.to_nat (- n)) (x + 2 * IZR n * PI)). f_equal. rewrite INR_IZR_INZ, Z2Nat.id, opp_IZR by lia. ring.
Qed.

Section Encode.
  Context {N : nat} (P2 : pow2 N) (N2 : (2 <= N)%nat).
  Notation NR := (INR N). Notation h := (N / 2)%nat.
  Lemma NR_pos : 0 < NR. Proof. apply lt_0_INR. lia. Qed.
  Lemma half_NR : NR = 2 * INR h.
  Proof.
    destruct P2 as [[|k] EL]; [cbn in EL; lia|]. assert (EH : (h = 2 ^ k)%nat) by (rewrite EL; cbn [Nat.pow]; rewrite Nat.mul_comm; apply Nat.div_mul; lia).
    rewrite EH. transitivity (INR (2 * 2 ^ k)); [f_equal; exact EL|]. rewrite mult_INR. reflexivity.
  Qed.
  (** sum over all coefficients of the powers of a product of two of the roots *)
  Lemma root_sum c : (2 | c)%Z -> ~ (2 * Z.of_nat N | c)%Z -> let x := PI * IZR c / NR in rsum N (fun i => cos (INR i * x)) = 0 /\ rsum N (fun i => sin (INR i * x)) = 0.
  Proof.
    intros [m Hm] ND x. pose proof NR_pos as NP. pose proof PI_RGT_0 as PP.
    assert (SN : sin (x / 2) <> 0).
    { intros E. apply sin_eq_0_0 in E. destruct E as [k E]. apply ND. exists k. apply eq_IZR. rewrite !mult_IZR, <- INR_IZR_INZ. unfold x in E.
      apply (Rmult_eq_compat_r (2 * NR)) in E. replace (PI * IZR c / NR / 2 * (2 * NR)) with (PI * IZR c) in E by (field; lra). apply Rmult_eq_reg_l with PI; [|lra]. rewrite E. ring. }
    assert (EN : (NR - 1 / 2) * x = - (x / 2) + IZR (2 * m) * PI).
    { unfold x. rewrite Hm, !mult_IZR. field. lra. }
    pose proof (cos_tele N x) as C. pose proof (sin_tele N x) as S. rewrite EN in C, S. rewrite sin_shift, sin_neg in C. rewrite cos_shift2, cos_neg in S.
    split.
    - apply Rmult_eq_reg_l with (2 * sin (x / 2)); [rewrite C; ring|]. apply Rmult_integral_contrapositive_currified; [lra|exact SN].
    - apply Rmult_eq_reg_l with (2 * sin (x / 2)); [rewrite S; ring|]. apply Rmult_integral_contrapositive_currified; [lra|exact SN].
  Qed.
  Lemma five_2N i j : (i < h)%nat -> (j < h)%nat -> ((2 | 5 ^ Z.of_nat i - 5 ^ Z.of_nat j) /\ (2 | 5 ^ Z.of_nat i + 5 ^ Z.of_nat j))%Z /\
    ~ (2 * Z.of_nat N | 5 ^ Z.of_nat i + 5 ^ Z.of_nat j)%Z /\ (i <> j -> ~ (2 * Z.of_nat N | 5 ^ Z.of_nat i - 5 ^ Z.of_nat j)%Z).
  Proof.
    destruct P2 as [[|k] EL]; [cbn in EL; lia|]. assert (EH : (h = 2 ^ k)%nat) by (rewrite EL; cbn [Nat.pow]; rewrite Nat.mul_comm; apply Nat.div_mul; lia).
    assert (E2 : (2 * Z.of_nat N = 2 ^ Z.of_nat (k + 2))%Z). { rewrite EL, Nat2Z.inj_pow. change (Z.of_nat 2) with 2%Z. replace (Z.of_nat (k + 2)) with (Z.succ (Z.of_nat (S k))) by lia. rewrite Z.pow_succ_r by lia. reflexivity. }
    rewrite E2, EH. intros Hi Hj. split.
    - destruct (five_mod8 i) as [a ->]. destruct (five_mod8 j) as [b ->]. split; [exists (2 * a - 2 * b)%Z|exists (2 * a + 2 * b + 1)%Z]; ring.
    - split; [apply five_sum|]. intros NE. apply five_distinct; assumption.
  Qed.
  Lemma angle_add i j : angle N i + angle N j = PI * IZR (5 ^ Z.of_nat i + 5 ^ Z.of_nat j) / NR. Proof. pose proof NR_pos. unfold angle. rewrite plus_IZR. field. lra. Qed.
  Lemma angle_sub i j : angle N i - angle N j = PI * IZR (5 ^ Z.of_nat i - 5 ^ Z.of_nat j) / NR. Proof. pose proof NR_pos. unfold angle. rewrite minus_IZR. field. lra. Qed.
  (** orthogonality *)
  Lemma ortho k j : (k < h)%nat -> (j < h)%nat ->
    rsum N (fun i => cos (INR i * angle N k) * cos (INR i * angle N j)) = (if Nat.eq_dec k j then INR h else 0) /\
    rsum N (fun i => sin (INR i * angle N k) * sin (INR i * angle N j)) = (if Nat.eq_dec k j then INR h else 0) /\
    rsum N (fun i => cos (INR i * angle N k) * sin (INR i * angle N j)) = 0 /\ rsum N (fun i => sin (INR i * angle N k) * cos (INR i * angle N j)) = 0.
  Proof.
    intros Hk Hj. destruct (five_2N k j Hk Hj) as ([D1 D2] & S1 & S2). pose proof half_NR as HN.
    destruct (root_sum _ D2 S1) as [A1 A2]. rewrite <- angle_add in A1, A2.
    assert (B : rsum N (fun i => cos (INR i * (angle N k - angle N j))) = (if Nat.eq_dec k j then NR else 0) /\ rsum N (fun i => sin (INR i * (angle N k - angle N j))) = 0).
    { destruct (Nat.eq_dec k j) as [->|NE].
      - rewrite (rsum_ext' N _ (fun _ => 1)) by (intros i _; replace (INR i * (angle N j - angle N j)) with 0 by ring; apply cos_0). rewrite (rsum_ext' N (fun i => sin _) (fun _ => 0)) by (intros i _; replace (INR i * (angle N j - angle N j)) with 0 by ring; apply sin_0).
        rewrite rsum_const, rsum_zero. split; ring.
      - rewrite angle_sub. apply root_sum; [exact D1|apply S2; exact NE]. }
    destruct B as [B1 B2]. set (a := angle N k) in *. set (b := angle N j) in *.
    assert (H2 : (if Nat.eq_dec k j then INR h else 0) = / 2 * (if Nat.eq_dec k j then NR else 0)) by (destruct (Nat.eq_dec k j); [rewrite HN; field|ring]).
    rewrite H2, <- B1. split; [|split; [|split]].
    - replace (/ 2 * rsum N (fun i => cos (INR i * (a - b)))) with (/ 2 * rsum N (fun i => cos (INR i * (a - b))) + / 2 * rsum N (fun i => cos (INR i * (a + b)))) by (rewrite A1; ring).
      rewrite <- !rsum_scal, <- rsum_plus. apply rsum_ext'. intros i _. rewrite Rmult_minus_distr_l, Rmult_plus_distr_l, cos_minus, cos_plus. field.
    - replace (/ 2 * rsum N (fun i => cos (INR i * (a - b)))) with (/ 2 * rsum N (fun i => cos (INR i * (a - b))) + - / 2 * rsum N (fun i => cos (INR i * (a + b)))) by (rewrite A1; ring).
      rewrite <- !rsum_scal, <- rsum_plus. apply rsum_ext'. intros i _. rewrite Rmult_minus_distr_l, Rmult_plus_distr_l, cos_minus, cos_plus. field.
    - replace 0 with (/ 2 * rsum N (fun i => sin (INR i * (a + b))) + - / 2 * rsum N (fun i => sin (INR i * (a - b)))) by (rewrite A2, B2; ring).
      rewrite <- !rsum_scal, <- rsum_plus. apply rsum_ext'. intros i _. rewrite Rmult_minus_distr_l, Rmult_plus_distr_l, sin_minus, sin_plus. field.
    - replace 0 with (/ 2 * rsum N (fun i => sin (INR i * (a + b))) + / 2 * rsum N (fun i => sin (INR i * (a - b)))) by (rewrite A2, B2; ring).
      rewrite <- !rsum_scal, <- rsum_plus. apply rsum_ext'. intros i _. rewrite Rmult_minus_distr_l, Rmult_plus_distr_l, sin_minus, sin_plus. field.
  Qed.

  (** the real coefficients with slots z *)
  Definition coeffs (z : nat -> R * R) (i : nat) : R := / INR h * rsum h (fun j => fst (z j) * cos (INR i * angle N j) + snd (z j) * sin (INR i * angle N j)).
  Lemma h_pos : 0 < INR h. Proof. apply lt_0_INR. apply Nat.div_str_pos. lia. Qed.
  Lemma coeffs_slots z k : (k < h)%nat -> rsum N (fun i => coeffs z i * cos (INR i * angle N k)) = fst (z k) /\ rsum N (fun i => coeffs z i * sin (INR i * angle N k)) = snd (z k).
  Proof.
    intros Hk. pose proof h_pos as HP.
    assert (G : forall f : nat -> R, rsum N (fun i => coeffs z i * f i) = / INR h * rsum h (fun j => fst (z j) * rsum N (fun i => f i * cos (INR i * angle N j)) + snd (z j) * rsum N (fun i => f i * sin (INR i * angle N j)))).
    { intros f. rewrite (rsum_ext' N _ (fun i => / INR h * rsum h (fun j => fst (z j) * (f i * cos (INR i * angle N j)) + snd (z j) * (f i * sin (INR i * angle N j))))).
      - rewrite rsum_scal, rsum_swap. f_equal. apply rsum_ext'. intros j _. rewrite rsum_plus, !rsum_scal. reflexivity.
      - intros i _. unfold coeffs. rewrite Rmult_assoc. f_equal. rewrite Rmult_comm, <- rsum_scal. apply rsum_ext'. intros j _. ring. }
    split; rewrite G; rewrite (rsum_single h _ k Hk).
    - destruct (ortho k k Hk Hk) as (O1 & O2 & O3 & O4). rewrite O1, O3. destruct (Nat.eq_dec k k); [field; lra|congruence].
    - intros j Hj NE. destruct (ortho k j Hk Hj) as (O1 & O2 & O3 & O4). rewrite O1, O3. destruct (Nat.eq_dec k j); [congruence|ring].
    - destruct (ortho k k Hk Hk) as (O1 & O2 & O3 & O4). rewrite O2, O4. destruct (Nat.eq_dec k k); [field; lra|congruence].
    - intros j Hj NE. destruct (ortho k j Hk Hj) as (O1 & O2 & O3 & O4). rewrite O2, O4. destruct (Nat.eq_dec k j); [congruence|ring].
  Qed.
  (** rounding to integers *)
  Definition nearest (x : R) : Z := Int_part (x + / 2).
  Lemma nearest_ok x : Rabs (IZR (nearest x) - x) <= / 2.
  Proof. unfold nearest. destruct (base_Int_part (x + / 2)) as [A B]. apply Rabs_le. lra. Qed.
  Definition encode (sg : R) (z : nat -> R * R) : Negacyclic.R N := mkR (fun i => nearest (sg * coeffs z i)).
  Lemma cabs_sum n (f : nat -> R) (t : R) : cabs (rsum n (fun i => f i * cos (INR i * t)), rsum n (fun i => f i * sin (INR i * t))) <= rsum n (fun i => Rabs (f i)).
  Proof.
    induction n as [|n IH]; [cbn [rsum]; unfold cabs; cbn [fst snd]; replace (0 * 0 + 0 * 0) with 0 by ring; rewrite sqrt_0; lra|].
    cbn [rsum]. set (x := rsum n _) in *. set (y := rsum n (fun i => f i * sin _)) in *.
    replace (x + f n * cos (INR n * t), y + f n * sin (INR n * t)) with (cadd (x, y) (f n * cos (INR n * t), f n * sin (INR n * t))) by reflexivity.
    eapply Rle_trans; [apply cabs_add|]. apply Rplus_le_compat; [exact IH|]. unfold cabs. cbn [fst snd]. set (w := INR n * t).
    replace (f n * cos w * (f n * cos w) + f n * sin w * (f n * sin w)) with (Rsqr (f n) * (Rsqr (sin w) + Rsqr (cos w))) by (unfold Rsqr; ring). rewrite sin2_cos2, Rmult_1_r, sqrt_Rsqr_abs. lra.
  Qed.
  Lemma encode_slots sg z j : (j < h)%nat -> cabs (csub (ckks_slot (encode sg z) j) (cscale sg (z j))) <= INR h.
  Proof.
    intros Hj. destruct (coeffs_slots z j Hj) as [C1 C2]. set (f := fun i => IZR (nearest (sg * coeffs z i)) - sg * coeffs z i).
    replace (csub (ckks_slot (encode sg z) j) (cscale sg (z j))) with (rsum N (fun i => f i * cos (INR i * angle N j)), rsum N (fun i => f i * sin (INR i * angle N j))).
    - eapply Rle_trans; [apply cabs_sum|]. eapply Rle_trans; [apply rsum_le; intros i _; apply (nearest_ok (sg * coeffs z i))|]. rewrite rsum_const, half_NR. lra.
    - unfold ckks_slot, val_re, val_im, csub, cscale. cbn [fst snd]. rewrite <- C1, <- C2. rewrite <- !rsum_scal. f_equal.
      + replace (rsum N (fun i => IZR (co (encode sg z) i) * cos (INR i * angle N j)) - rsum N (fun i => sg * (coeffs z i * cos (INR i * angle N j)))) with (rsum N (fun i => IZR (co (encode sg z) i) * cos (INR i * angle N j)) + -1 * rsum N (fun i => sg * (coeffs z i * cos (INR i * angle N j)))) by ring.
        rewrite <- rsum_scal, <- rsum_plus. apply rsum_ext'. intros i Hi. unfold encode. rewrite co_mkR by exact Hi. unfold f. ring.
      + replace (rsum N (fun i => IZR (co (encode sg z) i) * sin (INR i * angle N j)) - rsum N (fun i => sg * (coeffs z i * sin (INR i * angle N j)))) with (rsum N (fun i => IZR (co (encode sg z) i) * sin (INR i * angle N j)) + -1 * rsum N (fun i => sg * (coeffs z i * sin (INR i * angle N j)))) by ring.
        rewrite <- rsum_scal, <- rsum_plus. apply rsum_ext'. intros i Hi. unfold encode. rewrite co_mkR by exact Hi. unfold f. ring.
  Qed.
End Encode.

(** C25: every message of N/2 complex numbers has an integer polynomial whose slots, divided by the scale, are within N / (2 scale) of the message. *)
Theorem C25_encoding_exists : forall N (sg : R) (z : nat -> R * R) mu, pow2 N -> (2 <= N)%nat -> 0 < sg -> (forall j, (j < N / 2)%nat -> cabs (z j) <= mu) ->
  exists X : Negacyclic.R N, near X sg z mu (INR (N / 2) / sg).
Proof.
  intros N sg z mu P2 N2 HS HM. exists (@encode N sg z). intros j Hj. split; [|apply HM; exact Hj].
  replace (csub (cscale (/ sg) (ckks_slot (@encode N sg z) j)) (z j)) with (cscale (/ sg) (csub (ckks_slot (@encode N sg z) j) (cscale sg (z j)))).
  - rewrite cabs_cscale, Rabs_right by (apply Rle_ge, Rlt_le, Rinv_0_lt_compat; exact HS). unfold Rdiv. rewrite (Rmult_comm (INR _)). apply Rmult_le_compat_l; [apply Rlt_le, Rinv_0_lt_compat; exact HS|]. apply (encode_slots P2 N2 sg z j Hj).
  - unfold cscale, csub. cbn [fst snd]. destruct (z j) as [x y]. cbn [fst snd]. f_equal; field; lra.
Qed.
Print Assumptions C25_encoding_exists.
