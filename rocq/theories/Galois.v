(** Galois automorphisms: specification X -> X^g, the index-permutation loop of the code, Galois elements. *)
From Verif Require Import Base NumTheory Negacyclic Ntt Word BasisExt BasisExtProofs Rows IdSetModel RlweModel KeyGenModel.
From Coq Require Import Znumtheory Zpow_facts Setoid Morphisms.
Open Scope Z_scope.

Section Spec.
  Context {N : nat}.
  Notation R := (R N).
  (** the monomial X^m reduced modulo X^N + 1 *)
  Definition mono (m : Z) : R := mkR (fun k => if Z.of_nat k =? m mod Z.of_nat N then sgn (m / Z.of_nat N) else 0).
  (** the automorphism X -> X^g *)
  Definition galois (g : Z) (a : R) : R := Lsum (seq 0 N) (fun i => smul (co a i) (mono (g * Z.of_nat i))).

  Lemma co_Lsum {A} (l : list A) (f : A -> R) k : co (Lsum l f) k = fold_right (fun x s => co (f x) k + s) 0 l.
  Proof. induction l as [|x l IH]; cbn [Lsum fold_right]; [apply co_R0|]. rewrite co_add, IH. reflexivity. Qed.
  Lemma fold_sum (f : nat -> Z) n : fold_right (fun x s => f x + s) 0 (seq 0 n) = sum n f.
  Proof.
    induction n as [|n IH]; [reflexivity|]. rewrite seq_S, fold_right_app. cbn [fold_right plus].
    assert (X : forall l z, fold_right (fun x s => f x + s) z l = fold_right (fun x s => f x + s) 0 l + z).
    { clear. induction l as [|x l IH]; intros z; cbn [fold_right]; [lia|]. rewrite IH. lia. }
    rewrite X, IH. cbn [sum]. lia.
  Qed.

  Lemma gh_index g h k : (0 < N)%nat -> (2 * Z.of_nat N | g * h - 1) -> (k < N)%nat ->
    forall i, (i < N)%nat -> ((g * Z.of_nat i) mod Z.of_nat N = Z.of_nat k <-> Z.of_nat i = (Z.of_nat k * h) mod Z.of_nat N).
  Proof.
    intros NP [c GH] Hk i Hi. set (n := Z.of_nat N) in *. split; intros E.
    - apply (f_equal (fun x => (x * h) mod n)) in E. rewrite Zmult_mod_idemp_l in E. rewrite <- E.
      replace (g * Z.of_nat i * h) with (Z.of_nat i + (2 * c * Z.of_nat i) * n) by (transitivity (Z.of_nat i * (g * h)); [replace (g * h) with (1 + c * (2 * n)) by lia|]; ring).
      rewrite Z.mod_add by lia. symmetry. apply Z.mod_small. lia.
    - rewrite E, Zmult_mod_idemp_r. replace (g * (Z.of_nat k * h)) with (Z.of_nat k + (2 * c * Z.of_nat k) * n)
        by (transitivity (Z.of_nat k * (g * h)); [replace (g * h) with (1 + c * (2 * n)) by lia|]; ring).
      rewrite Z.mod_add by lia. apply Z.mod_small. lia.
  Qed.

  Lemma aut_at g h (a : R) i : (0 < N)%nat -> Z.odd h = true -> (2 * Z.of_nat N | g * h - 1) -> (i < N)%nat ->
    sgn ((g * Z.of_nat i) / Z.of_nat N) * co (aut h a) (Z.to_nat ((g * Z.of_nat i) mod Z.of_nat N)) = co a i.
  Proof.
    intros NP Oh [c GH] Hi. set (n := Z.of_nat N) in *.
    transitivity (ext (aut h a) (g * Z.of_nat i)); [reflexivity|].
    rewrite (ext_aut h a _ NP Oh). rewrite <- (ext_co NP a i Hi).
    replace (g * Z.of_nat i * h) with (Z.of_nat i + (2 * c * Z.of_nat i) * n) by (transitivity (Z.of_nat i * (g * h)); [replace (g * h) with (1 + c * (2 * n)) by lia|]; ring).
    unfold n. rewrite ext_kN by assumption. unfold sgn. rewrite <- Z.mul_assoc, Z.even_mul. change (Z.even 2) with true. cbn [orb]. ring.
  Qed.

  Theorem galois_aut g h (a : R) : Z.odd h = true -> (2 * Z.of_nat N | g * h - 1) -> galois g a = aut h a.
  Proof.
    intros Oh GH. apply R_ext. intros k Hk. assert (NP : (0 < N)%nat) by lia.
    unfold galois. rewrite co_Lsum, fold_sum.
    set (i := Z.to_nat ((Z.of_nat k * h) mod Z.of_nat N)).
    assert (Hi : (i < N)%nat) by (unfold i; pose proof (Z.mod_pos_bound (Z.of_nat k * h) (Z.of_nat N) ltac:(lia)); lia).
    assert (Zi : Z.of_nat i = (Z.of_nat k * h) mod Z.of_nat N) by (unfold i; pose proof (Z.mod_pos_bound (Z.of_nat k * h) (Z.of_nat N) ltac:(lia)); lia).
    rewrite (sum_single N _ i Hi).
    - rewrite co_smul. unfold mono. rewrite co_mkR by assumption.
      pose proof (proj2 (gh_index g h k NP GH Hk i Hi) Zi) as E. rewrite E, Z.eqb_refl.
      pose proof (aut_at g h a i NP Oh GH Hi) as X. rewrite E, Nat2Z.id in X. rewrite <- X.
      rewrite (Z.mul_comm (sgn _ * _)), Z.mul_assoc, sgn_sq. ring.
    - intros j Hj NE. rewrite co_smul. unfold mono. rewrite co_mkR by assumption.
      destruct (Z.eqb_spec (Z.of_nat k) ((g * Z.of_nat j) mod Z.of_nat N)) as [E|]; [|ring].
      exfalso. apply NE. apply Nat2Z.inj. rewrite Zi. apply (proj1 (gh_index g h k NP GH Hk j Hj)). symmetry. assumption.
  Qed.
End Spec.

(** ** units modulo 2N *)
Definition pow2 (N : nat) : Prop := exists L, N = (2 ^ L)%nat.
Lemma div_mul_mono a b c d : (a | b) -> (c | d) -> (a * c | b * d).
Proof. intros [x ->] [y ->]. exists (x * y). ring. Qed.
Lemma odd_pow_unit g L : Z.odd g = true -> (2 ^ (Z.of_nat L + 1) | g ^ (2 ^ Z.of_nat L) - 1).
Proof.
  intros O. induction L as [|L IH].
  - cbn [Z.of_nat]. change (2 ^ (0 + 1)) with 2. change (2 ^ 0) with 1. rewrite Z.pow_1_r.
    apply Z.odd_spec in O. destruct O as [k ->]. exists k. ring.
  - rewrite Nat2Z.inj_succ. set (x := g ^ (2 ^ Z.of_nat L)) in *.
    assert (E : g ^ (2 ^ Z.succ (Z.of_nat L)) = x * x).
    { rewrite Z.pow_succ_r by lia. rewrite (Z.mul_comm 2), Z.pow_mul_r by lia. fold x. ring. }
    rewrite E. replace (x * x - 1) with ((x + 1) * (x - 1)) by ring.
    replace (2 ^ (Z.succ (Z.of_nat L) + 1)) with (2 * 2 ^ (Z.of_nat L + 1)) by (rewrite <- Z.pow_succ_r by lia; f_equal; lia).
    apply div_mul_mono; [|assumption].
    assert (Ox : Z.odd x = true).
    { unfold x. rewrite Z.odd_pow; [assumption|]. pose proof (Z.pow_pos_nonneg 2 (Z.of_nat L)). lia. }
    apply Z.odd_spec in Ox. destruct Ox as [k ->]. exists (k + 1). ring.
Qed.
Lemma five_pow_unit L : (2 ^ (Z.of_nat L + 2) | 5 ^ (2 ^ Z.of_nat L) - 1).
Proof.
  induction L as [|L IH].
  - cbn. exists 1. reflexivity.
  - rewrite Nat2Z.inj_succ. set (x := 5 ^ (2 ^ Z.of_nat L)) in *.
    assert (E : 5 ^ (2 ^ Z.succ (Z.of_nat L)) = x * x).
    { rewrite Z.pow_succ_r by lia. rewrite (Z.mul_comm 2), Z.pow_mul_r by lia. fold x. ring. }
    rewrite E. replace (x * x - 1) with ((x + 1) * (x - 1)) by ring.
    replace (2 ^ (Z.succ (Z.of_nat L) + 2)) with (2 * 2 ^ (Z.of_nat L + 2)) by (rewrite <- Z.pow_succ_r by lia; f_equal; lia).
    apply div_mul_mono; [|assumption].
    assert (Ox : Z.odd x = true).
    { unfold x. rewrite Z.odd_pow; [reflexivity|]. pose proof (Z.pow_pos_nonneg 2 (Z.of_nat L)). lia. }
    apply Z.odd_spec in Ox. destruct Ox as [k ->]. exists (k + 1). ring.
Qed.
Lemma pow2_Z N L : N = (2 ^ L)%nat -> Z.of_nat N = 2 ^ Z.of_nat L.
Proof. intros ->. rewrite Nat2Z.inj_pow. reflexivity. Qed.

Lemma unit_2N N g : pow2 N -> Z.odd g = true -> eqz (2 * Z.of_nat N) (g ^ (2 * Z.of_nat N)) 1.
Proof.
  intros [L E] O. rewrite (pow2_Z N L E). replace (2 * 2 ^ Z.of_nat L) with (2 ^ (Z.of_nat L + 1)) by (rewrite Z.pow_add_r by lia; lia).
  rewrite (Z.add_1_r (Z.of_nat L)) at 2. rewrite Z.pow_succ_r by lia. rewrite (Z.mul_comm 2), Z.pow_mul_r by lia.
  assert (X : eqz (2 ^ (Z.of_nat L + 1)) (g ^ 2 ^ Z.of_nat L) 1) by (apply odd_pow_unit; assumption).
  change 1 with (1 ^ 2). apply eqz_pow; [lia|assumption].
Qed.
Lemma five_half N : pow2 N -> (2 <= N)%nat -> eqz (2 * Z.of_nat N) (5 ^ Z.of_nat (N / 2)) 1.
Proof.
  intros [L E] H. destruct L as [|L]; [subst; cbn in H; lia|].
  assert (E2 : (N / 2 = 2 ^ L)%nat) by (rewrite E, Nat.pow_succ_r', Nat.mul_comm; apply Nat.div_mul; lia).
  rewrite E2, (pow2_Z N _ E), (pow2_Z _ L eq_refl), Nat2Z.inj_succ.
  replace (2 * 2 ^ Z.succ (Z.of_nat L)) with (2 ^ (Z.of_nat L + 2)); [apply five_pow_unit|].
  rewrite <- Z.pow_succ_r by lia. f_equal. lia.
Qed.

Section GalEl.
  Variable N : nat.
  Hypothesis P2 : pow2 N.
  Let n2 := 2 * Z.of_nat N.
  Lemma N_pos : (0 < N)%nat.
  Proof. destruct P2 as [L ->]. apply Nat.neq_0_lt_0. apply Nat.pow_nonzero. lia. Qed.
  Lemma odd_mod_2N x : Z.odd (x mod n2) = Z.odd x.
  Proof.
    pose proof N_pos. rewrite (Z.div_mod x n2) at 2 by (unfold n2; lia). rewrite Z.odd_add, Z.odd_mul. unfold n2 at 2. rewrite Z.odd_mul.
    change (Z.odd 2) with false. cbn [andb]. rewrite Bool.xorb_false_l. reflexivity.
  Qed.
  Lemma odd_eqz x y : eqz n2 x y -> Z.odd x = Z.odd y.
  Proof. pose proof N_pos. intros E. apply eqz_iff in E; [|unfold n2; lia]. rewrite <- (odd_mod_2N x), <- (odd_mod_2N y), E. reflexivity. Qed.

  Lemma galEl_eqz k : 0 <= k -> eqz n2 (galEl N k) (5 ^ k).
  Proof.
    intros K. pose proof N_pos as NP. unfold galEl. fold n2. rewrite powm_ok by (unfold n2; lia). rewrite eqz_mod.
    rewrite (Z.div_mod k n2) at 2 by (unfold n2; lia).
    pose proof (Z.mod_pos_bound k n2 ltac:(unfold n2; lia)). pose proof (Z.div_pos k n2 K ltac:(unfold n2; lia)).
    rewrite Z.pow_add_r, Z.pow_mul_r by (unfold n2 in *; lia).
    transitivity (1 ^ (k / n2) * 5 ^ (k mod n2)); [rewrite Z.pow_1_l by lia; apply eqz_eq; ring|].
    apply eqz_mul; [|reflexivity]. apply eqz_pow; [lia|]. symmetry. apply unit_2N; [assumption|reflexivity].
  Qed.
  Lemma galEl_range k : 0 <= galEl N k < n2.
  Proof. pose proof N_pos. unfold galEl. rewrite powm_ok by lia. apply Z.mod_pos_bound. unfold n2. lia. Qed.
  Lemma galEl_odd k : Z.odd (galEl N k) = true.
  Proof.
    pose proof N_pos. unfold galEl. fold n2. rewrite powm_ok by (unfold n2; lia). rewrite odd_mod_2N.
    pose proof (Z.mod_pos_bound k n2 ltac:(unfold n2; lia)) as B. destruct (Z.eq_dec (k mod n2) 0) as [->|]; [reflexivity|].
    rewrite Z.odd_pow by lia. reflexivity.
  Qed.
  Lemma invGalEl_range g : 0 <= invGalEl N g < n2.
  Proof. pose proof N_pos. unfold invGalEl. rewrite powm_ok by lia. apply Z.mod_pos_bound. unfold n2. lia. Qed.
  Lemma invGalEl_ok g : Z.odd g = true -> eqz n2 (g * invGalEl N g) 1.
  Proof.
    intros O. pose proof N_pos. unfold invGalEl. fold n2. rewrite powm_ok by (unfold n2; lia).
    transitivity (g * g ^ (n2 - 1)); [apply eqz_mul; [reflexivity|apply eqz_mod]|].
    rewrite <- Z.pow_succ_r by (unfold n2; lia). replace (Z.succ (n2 - 1)) with n2 by lia. apply unit_2N; assumption.
  Qed.
  Lemma inv_odd g h : eqz n2 (g * h) 1 -> Z.odd h = true.
  Proof. intros E. apply odd_eqz in E. rewrite Z.odd_mul in E. destruct (Z.odd h); [reflexivity|]. rewrite Bool.andb_false_r in E. discriminate. Qed.
  Lemma invGalEl_odd g : Z.odd g = true -> Z.odd (invGalEl N g) = true.
  Proof. intros O. apply (inv_odd g). apply invGalEl_ok. assumption. Qed.
  Lemma conj_inv : eqz n2 (conjEl N * conjEl N) 1.
  Proof. unfold conjEl, n2. exists (2 * Z.of_nat N - 2). ring. Qed.
  Lemma conj_odd : Z.odd (conjEl N) = true.
  Proof. unfold conjEl. rewrite Z.odd_sub, Z.odd_mul. reflexivity. Qed.
  (** amounts equal modulo N/2 have the same Galois element *)
  Lemma galEl_half k k' : (2 <= N)%nat -> 0 <= k -> 0 <= k' -> eqz (Z.of_nat (N / 2)) k k' -> galEl N k = galEl N k'.
  Proof.
    intros N2 K K' E. pose proof N_pos.
    assert (W : forall a c, 0 <= a -> 0 <= c -> eqz n2 (5 ^ (a + c * Z.of_nat (N / 2))) (5 ^ a)).
    { intros a c A C. rewrite Z.pow_add_r, (Z.mul_comm c), Z.pow_mul_r by lia. transitivity (5 ^ a * 1 ^ c); [|rewrite Z.pow_1_l by lia; apply eqz_eq; ring].
      apply eqz_mul; [reflexivity|]. apply eqz_pow; [lia|]. apply five_half; assumption. }
    assert (H1 : eqz n2 (galEl N k) (galEl N k')).
    { rewrite !galEl_eqz by assumption. destruct E as [c E].
      assert (HP : 0 < Z.of_nat (N / 2)) by (assert (N / 2 <> 0)%nat by (intros Z0; apply Nat.div_small_iff in Z0; lia); lia).
      destruct (Z_le_gt_dec 0 c).
      - replace k with (k' + c * Z.of_nat (N / 2)) by lia. apply W; lia.
      - symmetry. replace k' with (k + (- c) * Z.of_nat (N / 2)) by lia. apply W; lia. }
    apply eqz_iff in H1; [|unfold n2; lia]. pose proof (galEl_range k). pose proof (galEl_range k'). rewrite !Z.mod_small in H1 by assumption. assumption.
  Qed.
  Lemma galEl_add j k : 0 <= j -> 0 <= k -> eqz n2 (galEl N j * galEl N k) (galEl N (j + k)).
  Proof. intros J K. rewrite !galEl_eqz by lia. rewrite Z.pow_add_r by lia. reflexivity. Qed.
End GalEl.

Lemma norm_loop_ok half : 0 < half -> forall fuel k, - k <= Z.of_nat fuel -> norm_loop fuel half k = Ok (if k <? 0 then k mod half else k).
Proof.
  intros H. induction fuel as [|f IH]; intros k K; cbn [norm_loop]; destruct (Z.ltb_spec k 0); trivial; [lia|].
  rewrite IH by lia. destruct (Z.ltb_spec (k + half) 0).
  - rewrite <- (Z.mod_add k 1) by lia. f_equal. f_equal. ring.
  - f_equal. rewrite <- (Z.mod_add k 1) by lia. rewrite Z.mul_1_l. symmetry. apply Z.mod_small. lia.
Qed.
Lemma norm_rot_ok N k : (2 <= N)%nat -> norm_rot N k = Ok (if k <? 0 then k mod Z.of_nat (N / 2) else k).
Proof.
  intros H. unfold norm_rot. apply norm_loop_ok; [|lia].
  assert (N / 2 <> 0)%nat by (intros Z0; apply Nat.div_small_iff in Z0; lia). lia.
Qed.

(** ** the coefficient permutation *)
(** math/bits Len64 *)
Definition len64 (x : Z) : Z := if x =? 0 then 0 else Z.log2 x + 1.
Section Permute.
  Context {N : nat}.
  Notation R := (R N).
  (** keyswitch.go:270-292, keyswitch_hoisted.go:219-241 and lattigo ring.Permute on one row;
      [pool] is the previous contents of the destination. *)
  Definition perm_row (g : Z) (m : modulus) (a : R) (pool : list Z) : R :=
    let mask := Z.of_nat N - 1 in
    let out := fold_left (fun r i =>
        let raw := w64 (Z.of_nat i * g) in
        let index := Z.land raw mask in
        let tmp := Z.land (Z.shiftr raw (len64 mask)) 1 in
        upd r (Z.to_nat index) (if tmp =? 0 then co a i else w64 (mq m - co a i))) (seq 0 N) pool in
    mkR (fun k => nth k out 0).

  Lemma upd_length {A} (l : list A) i x : length (upd l i x) = length l.
  Proof. revert i. induction l as [|y l IH]; intros [|i]; cbn; trivial. rewrite IH. reflexivity. Qed.
  Lemma upd_nth {A} (l : list A) i x j d : (i < length l)%nat -> nth j (upd l i x) d = if (j =? i)%nat then x else nth j l d.
  Proof.
    revert i j. induction l as [|y l IH]; intros [|i] [|j] H; cbn [upd nth length Nat.eqb] in *; trivial; try lia. apply IH. lia.
  Qed.
  Lemma writes_ok {A} (f : nat -> nat) (v : nat -> A) d n r : (forall i, (i < n)%nat -> (f i < length r)%nat) ->
    (forall i j, (i < n)%nat -> (j < n)%nat -> f i = f j -> i = j) ->
    let out := fold_left (fun r i => upd r (f i) (v i)) (seq 0 n) r in
    length out = length r /\ forall i, (i < n)%nat -> nth (f i) out d = v i.
  Proof.
    intros H I. induction n as [|n IH]; [split; [reflexivity|]; intros; lia|].
    cbv zeta. rewrite seq_S, fold_left_app. cbn [fold_left plus].
    destruct IH as [L V]; [intros; apply H; lia|intros; apply I; lia|]. cbv zeta in L, V.
    rewrite upd_length. split; [exact L|]. intros i Hi. rewrite upd_nth by (rewrite L; apply H; lia).
    destruct (Nat.eqb_spec (f i) (f n)) as [E|NE].
    - apply I in E; try lia. subst. reflexivity.
    - apply V. assert (i <> n) by congruence. lia.
  Qed.

  Lemma land_mask x L : Z.land x (2 ^ Z.of_nat L - 1) = x mod 2 ^ Z.of_nat L.
  Proof. rewrite <- Z.land_ones by lia. f_equal. rewrite Z.ones_equiv. lia. Qed.
  Lemma len_mask L : len64 (2 ^ Z.of_nat L - 1) = Z.of_nat L.
  Proof.
    unfold len64. destruct (Z.eqb_spec (2 ^ Z.of_nat L - 1) 0) as [E|E].
    - destruct L; [reflexivity|]. exfalso. rewrite Nat2Z.inj_succ, Z.pow_succ_r in E by lia. pose proof (Z.pow_pos_nonneg 2 (Z.of_nat L)). lia.
    - destruct L as [|L]; [cbn in E; lia|]. rewrite (Z.log2_unique (2 ^ Z.of_nat (S L) - 1) (Z.of_nat L)); try lia.
      rewrite Nat2Z.inj_succ, Z.pow_succ_r by lia. pose proof (Z.pow_pos_nonneg 2 (Z.of_nat L)). lia.
  Qed.

  Theorem perm_row_ok g h m (a : R) pool : pow2 N -> Z.of_nat N <= 2 ^ 31 -> 0 <= g < 2 * Z.of_nat N -> Z.odd h = true ->
    (2 * Z.of_nat N | g * h - 1) -> okq (mq m) -> inr m a -> length pool = N ->
    inr m (perm_row g m a pool) /\ eqm (mq m) (perm_row g m a pool) (aut h a) /\
    forall pool', length pool' = N -> perm_row g m a pool' = perm_row g m a pool.
  Proof.
    intros P2 NB G Oh GH K A LP. pose proof (N_pos N P2) as NP. destruct P2 as [L EL]. pose proof (pow2_Z N L EL) as EZ.
    set (n := Z.of_nat N) in *.
    set (f := fun i => Z.to_nat ((g * Z.of_nat i) mod n)).
    set (v := fun i => if Z.even ((g * Z.of_nat i) / n) then co a i else mq m - co a i).
    assert (STEP : forall pool0, fold_left (fun r i => let raw := w64 (Z.of_nat i * g) in let index := Z.land raw (n - 1) in
        let tmp := Z.land (Z.shiftr raw (len64 (n - 1))) 1 in
        upd r (Z.to_nat index) (if tmp =? 0 then co a i else w64 (mq m - co a i))) (seq 0 N) pool0
       = fold_left (fun r i => upd r (f i) (v i)) (seq 0 N) pool0).
    { assert (X : forall l pool0, (forall i, In i l -> (i < N)%nat) -> fold_left (fun r i => let raw := w64 (Z.of_nat i * g) in let index := Z.land raw (n - 1) in
        let tmp := Z.land (Z.shiftr raw (len64 (n - 1))) 1 in
        upd r (Z.to_nat index) (if tmp =? 0 then co a i else w64 (mq m - co a i))) l pool0
       = fold_left (fun r i => upd r (f i) (v i)) l pool0); [|intros pool0; apply X; intros i Hi; apply in_seq in Hi; lia].
      induction l as [|i l IH]; intros pool0 HL; [reflexivity|]. cbn [fold_left]. rewrite IH by (intros; apply HL; right; assumption).
      f_equal. cbv zeta. specialize (HL i ltac:(left; reflexivity)).
      assert (W1 : w64 (Z.of_nat i * g) = g * Z.of_nat i) by (unfold w64; rewrite Z.mod_small; [ring|unfold W; nia]).
      rewrite W1, EZ, land_mask, len_mask. rewrite <- EZ. unfold f, v. f_equal.
      rewrite Z.shiftr_div_pow2 by lia. rewrite <- EZ.
      assert (T : Z.land (g * Z.of_nat i / n) 1 = if Z.even (g * Z.of_nat i / n) then 0 else 1).
      { change 1 with (Z.ones 1) at 1. rewrite Z.land_ones by lia. change (2 ^ 1) with 2. rewrite Zmod_even. reflexivity. }
      rewrite T. specialize (A i HL). destruct (Z.even (g * Z.of_nat i / n)); cbn [Z.eqb]; trivial.
      apply Z.mod_small. apply okq_lt in K. lia. }
    assert (FB : forall i, (i < N)%nat -> (f i < N)%nat).
    { intros i Hi. unfold f. pose proof (Z.mod_pos_bound (g * Z.of_nat i) n ltac:(lia)). lia. }
    assert (FI : forall i j, (i < N)%nat -> (j < N)%nat -> f i = f j -> i = j).
    { intros i j Hi Hj E. apply Nat2Z.inj.
      assert (X : forall x, (x < N)%nat -> (g * Z.of_nat x) mod n = Z.of_nat (f x)) by (intros x Hx; unfold f; pose proof (Z.mod_pos_bound (g * Z.of_nat x) n ltac:(lia)); lia).
      pose proof (proj1 (gh_index g h (f i) NP GH (FB i Hi) i Hi) (X i Hi)) as I1.
      pose proof (proj1 (gh_index g h (f j) NP GH (FB j Hj) j Hj) (X j Hj)) as I2. rewrite I1, I2, E. reflexivity. }
    assert (FS : forall k, (k < N)%nat -> exists i, (i < N)%nat /\ f i = k).
    { intros k Hk. set (i := Z.to_nat ((Z.of_nat k * h) mod n)). pose proof (Z.mod_pos_bound (Z.of_nat k * h) n ltac:(lia)).
      assert (Hi : (i < N)%nat) by (unfold i; lia). exists i. split; [assumption|].
      assert (Zi : Z.of_nat i = (Z.of_nat k * h) mod n) by (unfold i; lia).
      pose proof (proj2 (gh_index g h k NP GH Hk i Hi) Zi) as E. unfold f, n. rewrite E. apply Nat2Z.id. }
    assert (VAL : forall pool0, length pool0 = N -> forall i, (i < N)%nat -> co (perm_row g m a pool0) (f i) = v i).
    { intros pool0 L0 i Hi. unfold perm_row. fold n. rewrite co_mkR by (apply FB; assumption). rewrite STEP.
      destruct (writes_ok f v 0 N pool0) as [_ V]; [intros; rewrite L0; apply FB; assumption|assumption|]. apply V. assumption. }
    split; [|split].
    - intros k Hk. destruct (FS k Hk) as (i & Hi & <-). rewrite VAL by assumption. unfold v. specialize (A i Hi). destruct (Z.even _); lia.
    - apply eqm_co. intros k Hk. destruct (FS k Hk) as (i & Hi & <-). rewrite VAL by assumption.
      pose proof (aut_at g h a i NP Oh GH Hi) as X. fold n in X. fold (f i) in X. unfold v. rewrite <- X. unfold sgn.
      destruct (Z.even (g * Z.of_nat i / n)); [exists 0|exists 1]; ring.
    - intros pool' L'. apply R_ext. intros k Hk. destruct (FS k Hk) as (i & Hi & <-). rewrite !VAL by assumption. reflexivity.
  Qed.
End Permute.

Section Gal.
  Context {N : nat} (P2 : pow2 N).
  Notation R := (R N).
  Lemma gal_inv k : 0 <= k -> (2 * Z.of_nat N | 5 ^ k * invGalEl N (galEl N k) - 1).
  Proof.
    intros K. pose proof (galEl_odd N P2 k) as O. pose proof (invGalEl_ok N P2 _ O) as X.
    change (eqz (2 * Z.of_nat N) (5 ^ k * invGalEl N (galEl N k)) 1). rewrite <- (galEl_eqz N P2 k K). exact X.
  Qed.
  Lemma galois_galEl k (a : R) : 0 <= k -> galois (5 ^ k) a = aut (invGalEl N (galEl N k)) a.
  Proof. intros K. apply galois_aut; [apply (invGalEl_odd N P2); apply (galEl_odd N P2)|]. apply gal_inv. assumption. Qed.
  Lemma aut_inv_gal k (a : R) : 0 <= k -> aut (invGalEl N (galEl N k)) (aut (galEl N k) a) = a.
  Proof.
    intros K. pose proof (galEl_odd N P2 k) as O. rewrite aut_comp by (trivial; apply (N_pos N P2)).
    rewrite (aut_mod _ 1) by (try apply (N_pos N P2); rewrite (Z.mul_comm (invGalEl _ _)); apply (invGalEl_ok N P2); assumption). apply aut_1. apply (N_pos N P2).
  Qed.
  Lemma galois_conj (a : R) : galois (-1) a = aut (conjEl N) a.
  Proof. apply galois_aut; [apply conj_odd|]. unfold conjEl. exists (-1). ring. Qed.
  Lemma odd_gcd h : Z.odd h = true -> Z.gcd h (Z.of_nat N) = 1.
  Proof.
    intros O. destruct P2 as [L ->]. rewrite (pow2_Z (2 ^ L) L eq_refl). apply Zgcd_1_rel_prime.
    apply Zpow_facts.rel_prime_Zpower_r; [lia|]. apply rel_prime_sym. apply prime_rel_prime; [apply prime_2|]. intros [z Hz]. rewrite Hz, Z.odd_mul, Bool.andb_false_r in O. discriminate.
  Qed.
  Lemma aut_mul' h (a b : R) : Z.odd h = true -> aut h (mul a b) = mul (aut h a) (aut h b).
  Proof. intros O. apply aut_mul; [apply odd_gcd|]; assumption. Qed.
End Gal.
