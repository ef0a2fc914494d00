(** Slot by slot meaning of [cnn_prog]: register 101 holds the outputs of the network. *)
From Flocq Require Import Core BinarySingleNaN.
From Coq Require Import Znumtheory Setoid Morphisms Reals Lra Ring_theory Ring.
From Verif Require Import Base IdSetModel KeySetModel NumTheory Negacyclic Ntt Word BasisExt Rows RlweModel KeyGenModel CtModel KeySwitchModel FloatModel CkksFloat CkksModel Slots PropsSlots CkksSlots CkksCircuit PropsCkksCircuit CkksHoist CkksTight PropsCnn CnnModel CnnNet CnnSlots.
Open Scope Z_scope.
Add Ring CC_ring_cnn2 : CC_ring.

Section Regs.
  Variables (N : nat) (zp zs : list slots) (prog : list kinstr).
  Hypothesis (N2 : (2 <= N)%nat).
  Let run := kplain_run N zp prog zs.
  (** slot z of register a, slots counted cyclically *)
  Definition zreg (a : nat) (z : Z) : CC := nth a run zslots (Z.to_nat (z mod Z.of_nat (N / 2))).
  Lemma hpos : 0 < Z.of_nat (N / 2). Proof using N2. apply half_pos. exact N2. Qed.
  Lemma zreg_add k i j z : nth_error prog k = Some (KAdd i j) -> (i < length zs + k)%nat -> (j < length zs + k)%nat -> zreg (length zs + k) z = cadd (zreg i z) (zreg j z).
  Proof using. intros E Hi Hj. unfold zreg, run. rewrite (run_at N zp prog zs k _ E) by (intros a [<-|[<-|[]]]; assumption). reflexivity. Qed.
  Lemma zreg_mul k i j z : nth_error prog k = Some (KMul i j) -> (i < length zs + k)%nat -> (j < length zs + k)%nat -> zreg (length zs + k) z = cmul (zreg i z) (zreg j z).
  Proof using. intros E Hi Hj. unfold zreg, run. rewrite (run_at N zp prog zs k _ E) by (intros a [<-|[<-|[]]]; assumption). reflexivity. Qed.
  Lemma zreg_drop k i n z : nth_error prog k = Some (KDrop i n) -> (i < length zs + k)%nat -> zreg (length zs + k) z = zreg i z.
  Proof using. intros E Hi. unfold zreg, run. rewrite (run_at N zp prog zs k _ E) by (intros a [<-|[]]; assumption). reflexivity. Qed.
  Lemma zreg_pt k i p z : nth_error prog k = Some (KPt i p) -> (i < length zs + k)%nat -> zreg (length zs + k) z = cmul (nth p zp zslots (Z.to_nat (z mod Z.of_nat (N / 2)))) (zreg i z).
  Proof using. intros E Hi. unfold zreg, run. rewrite (run_at N zp prog zs k _ E) by (intros a [<-|[]]; assumption). reflexivity. Qed.
  Lemma zreg_rot k i r z : nth_error prog k = Some (KRot i r) -> (i < length zs + k)%nat -> zreg (length zs + k) z = zreg i (z + r).
  Proof using N2.
    intros E Hi. unfold zreg, run. rewrite (run_at N zp prog zs k _ E) by (intros a [<-|[]]; assumption). unfold kplain. f_equal.
    pose proof hpos as H. set (h := Z.of_nat (N / 2)) in *. pose proof (Z.mod_pos_bound r h H). pose proof (Z.mod_pos_bound z h H).
    rewrite <- Z2Nat.inj_add by lia. apply Nat2Z.inj. rewrite Nat2Z.inj_mod, !Z2Nat.id by (try apply Z.mod_pos_bound; lia). fold h. rewrite <- Zplus_mod. reflexivity.
  Qed.
  Lemma zreg_in a z : (a < length zs)%nat -> zreg a z = nth a zs zslots (Z.to_nat (z mod Z.of_nat (N / 2))).
  Proof using. intros H. unfold zreg, run. rewrite run_keep by exact H. reflexivity. Qed.
  (** the doubling loop *)
  Lemma zreg_loop cnt : forall step a k z, (a + 1 = length zs + k)%nat -> (forall m, (m < 2 * cnt)%nat -> nth_error prog (k + m) = nth_error (xerase (rotAdds cnt step a)) m) ->
    zreg (a + 2 * cnt) z = csum (2 ^ cnt) (fun t => zreg a (z + step * Z.of_nat t)).
  Proof using N2.
    induction cnt as [|cnt IH]; intros step a k z HA HE.
    { cbn [Nat.mul Nat.pow]. rewrite Nat.add_0_r, csum_S. unfold csum. cbn [ksum]. replace (z + step * Z.of_nat 0) with z by lia. ring. }
    assert (R0 : forall y, zreg (S a) y = zreg a (y + step)).
    { intros y. replace (S a) with (length zs + k)%nat by lia. apply zreg_rot; [|lia]. rewrite <- (Nat.add_0_r k). rewrite HE by lia. reflexivity. }
    assert (R1 : forall y, zreg (S (S a)) y = cadd (zreg a y) (zreg a (y + step))).
    { intros y. rewrite <- R0. replace (S (S a)) with (length zs + (k + 1))%nat by lia. apply zreg_add; [|lia|lia]. rewrite HE by lia. reflexivity. }
    replace (a + 2 * S cnt)%nat with (S (S a) + 2 * cnt)%nat by lia. rewrite (IH (2 * step) (S (S a)) (k + 2)%nat).
    - rewrite (csum_ext _ _ (fun t => cadd (zreg a (z + step * Z.of_nat (2 * t))) (zreg a (z + step * Z.of_nat (2 * t + 1))))).
      + rewrite (csum_pairs (2 ^ cnt) (fun t => zreg a (z + step * Z.of_nat t))). reflexivity.
      + intros t _. rewrite R1. f_equal; f_equal; lia.
    - lia.
    - intros m Hm. rewrite <- Nat.add_assoc. rewrite HE by lia. reflexivity.
  Qed.
End Regs.

(** ** the program *)
Lemma periodic {A} (f : Z -> A) p : 0 < p -> (forall z, f (z + p) = f z) -> forall z, f z = f (z mod p).
Proof.
  intros P H. assert (G : forall (n : nat) z, f (z + p * Z.of_nat n) = f z).
  { induction n as [|n IH]; intros z; [f_equal; lia|]. replace (z + p * Z.of_nat (S n)) with (z + p * Z.of_nat n + p) by lia. rewrite H. apply IH. }
  intros z. pose proof (Z.div_mod z p ltac:(lia)) as D. destruct (Z_lt_le_dec (z / p) 0) as [L|L].
  - rewrite <- (G (Z.to_nat (- (z / p))) z). f_equal. rewrite Z2Nat.id by lia. lia.
  - rewrite <- (G (Z.to_nat (z / p)) (z mod p)). f_equal. rewrite Z2Nat.id by lia. lia.
Qed.
Lemma doubled_at a z : doubled a (Z.to_nat (z mod 8192)) = a (Z.to_nat (z mod 4096)).
Proof.
  unfold doubled. pose proof (Z.mod_pos_bound z 8192 ltac:(lia)) as B. assert (E : z mod 4096 = (z mod 8192) mod 4096) by (rewrite <- Znumtheory.Zmod_div_mod; [reflexivity|lia|lia|exists 2; reflexivity]).
  destruct (Nat.ltb_spec (Z.to_nat (z mod 8192)) 4096) as [L|L]; f_equal.
  - rewrite E, (Z.mod_small (z mod 8192) 4096) by lia. reflexivity.
  - rewrite E. revert L B. clear E. generalize (z mod 8192). intros y L B. replace (y mod 4096) with (y - 4096) by (apply (Z.mod_unique y 4096 1); lia). lia.
Qed.
Lemma placed_at N v z : (2 <= N)%nat -> (8192 | Z.of_nat (N / 2)) -> placed v (Z.to_nat (z mod Z.of_nat (N / 2))) = v (Z.to_nat (z mod 8192)).
Proof.
  intros N2 D. pose proof (half_pos N2) as H. unfold placed. f_equal. pose proof (Z.mod_pos_bound z _ H) as B. apply Nat2Z.inj. rewrite Nat2Z.inj_mod, !Z2Nat.id by (try apply Z.mod_pos_bound; lia).
  change (Z.of_nat 8192) with 8192. symmetry. apply Znumtheory.Zmod_div_mod; [lia|exact H|exact D].
Qed.

Lemma csum8 f : csum 8 f = cadd (cadd (cadd (cadd (cadd (cadd (cadd (f 0%nat) (f 1%nat)) (f 2%nat)) (f 3%nat)) (f 4%nat)) (f 5%nat)) (f 6%nat)) (f 7%nat).
Proof. unfold csum. cbn [ksum]. ring. Qed.
Section Prog.
  Variables (N : nat) (w : network) (image : nat -> nat -> CC).
  Hypothesis (N2 : (2 <= N)%nat) (D : (8192 | Z.of_nat (N / 2))).
  Notation r := (zreg N [placed encodedMask] (cnn_inputs w image) (xerase cnn_prog)).
  Ltac lt := apply Nat.ltb_lt; reflexivity.
  Ltac ad k i j := let y := fresh "y" in intros y; exact (zreg_add N [placed encodedMask] (cnn_inputs w image) (xerase cnn_prog) k i j y eq_refl ltac:(lt) ltac:(lt)).
  Ltac mu k i j := let y := fresh "y" in intros y; exact (zreg_mul N [placed encodedMask] (cnn_inputs w image) (xerase cnn_prog) k i j y eq_refl ltac:(lt) ltac:(lt)).
  Ltac ro k i n := let y := fresh "y" in intros y; exact (zreg_rot N [placed encodedMask] (cnn_inputs w image) (xerase cnn_prog) N2 k i n y eq_refl ltac:(lt)).
  Ltac dr k i := let y := fresh "y" in intros y; exact (zreg_drop N [placed encodedMask] (cnn_inputs w image) (xerase cnn_prog) k i 0 y eq_refl ltac:(lt)).
  Ltac loop n s a k := let y := fresh "y" in intros y; exact (zreg_loop N [placed encodedMask] (cnn_inputs w image) (xerase cnn_prog) N2 n s a k y eq_refl ltac:(let m := fresh in let H := fresh in intros m H; do 14 (destruct m as [|m]; [first [reflexivity|exfalso; lia]|]); exfalso; lia)).

  Lemma conv_sum z : r 25 z = cadd (cadd (cadd (cmul (r 0 z) (r 1 z)) (cmul (r 0 (z + 1)) (r 2 z))) (cmul (r 0 (z + 14)) (r 3 z))) (cmul (r 0 (z + 15)) (r 4 z)).
  Proof using N2.
    assert (E16 : forall z, r 16 z = cmul (r 0 z) (r 1 z)) by (mu 0%nat 0%nat 1%nat).
    assert (E17 : forall z, r 17 z = r 0 (z + 1)) by (ro 1%nat 0%nat 1).
    assert (E18 : forall z, r 18 z = cmul (r 17 z) (r 2 z)) by (mu 2%nat 17%nat 2%nat).
    assert (E19 : forall z, r 19 z = cadd (r 16 z) (r 18 z)) by (ad 3%nat 16%nat 18%nat).
    assert (E20 : forall z, r 20 z = r 0 (z + 14)) by (ro 4%nat 0%nat 14).
    assert (E21 : forall z, r 21 z = cmul (r 20 z) (r 3 z)) by (mu 5%nat 20%nat 3%nat).
    assert (E22 : forall z, r 22 z = cadd (r 19 z) (r 21 z)) by (ad 6%nat 19%nat 21%nat).
    assert (E23 : forall z, r 23 z = r 0 (z + 15)) by (ro 7%nat 0%nat 15).
    assert (E24 : forall z, r 24 z = cmul (r 23 z) (r 4 z)) by (mu 8%nat 23%nat 4%nat).
    assert (E25 : forall z, r 25 z = cadd (r 22 z) (r 24 z)) by (ad 9%nat 22%nat 24%nat).
    rewrite E25, E22, E19, E16, E18, E17, E21, E20, E24, E23. reflexivity.
  Qed.
  Lemma conv_fold z : r 29 z = cadd (cadd (r 25 z) (r 25 (z + 2048))) (cadd (r 25 (z + 1024)) (r 25 (z + 3072))).
  Proof using N2.
    assert (E26 : forall z, r 26 z = r 25 (z + 2048)) by (ro 10%nat 25%nat 2048).
    assert (E27 : forall z, r 27 z = cadd (r 25 z) (r 26 z)) by (ad 11%nat 25%nat 26%nat).
    assert (E28 : forall z, r 28 z = r 27 (z + 1024)) by (ro 12%nat 27%nat 1024).
    assert (E29 : forall z, r 29 z = cadd (r 27 z) (r 28 z)) by (ad 13%nat 27%nat 28%nat).
    rewrite E29, E28, !E27, !E26. replace (z + 1024 + 2048) with (z + 3072) by lia. reflexivity.
  Qed.
  Lemma square1 z : r 30 z = square (r 29 z). Proof using. revert z. mu 14%nat 29%nat 29%nat. Qed.
  Lemma fc1_terms z : r 62 z = csum 8 (fun i => cmul (r 30 (z + 128 * Z.of_nat i)) (r (5 + i) z)).
  Proof using N2.
    assert (R0 : forall z, r 32 z = r 30 (z + 0)) by (ro 16%nat 30%nat 0).
    assert (M0 : forall z, r 33 z = cmul (r 32 z) (r 5 z)) by (mu 17%nat 32%nat 5%nat).
    assert (A0 : forall z, r 34 z = r 33 z) by (dr 18%nat 33%nat).
    assert (R1 : forall z, r 36 z = r 30 (z + 128)) by (ro 20%nat 30%nat 128).
    assert (M1 : forall z, r 37 z = cmul (r 36 z) (r 6 z)) by (mu 21%nat 36%nat 6%nat).
    assert (A1 : forall z, r 38 z = cadd (r 34 z) (r 37 z)) by (ad 22%nat 34%nat 37%nat).
    assert (R2 : forall z, r 40 z = r 30 (z + 256)) by (ro 24%nat 30%nat 256).
    assert (M2 : forall z, r 41 z = cmul (r 40 z) (r 7 z)) by (mu 25%nat 40%nat 7%nat).
    assert (A2 : forall z, r 42 z = cadd (r 38 z) (r 41 z)) by (ad 26%nat 38%nat 41%nat).
    assert (R3 : forall z, r 44 z = r 30 (z + 384)) by (ro 28%nat 30%nat 384).
    assert (M3 : forall z, r 45 z = cmul (r 44 z) (r 8 z)) by (mu 29%nat 44%nat 8%nat).
    assert (A3 : forall z, r 46 z = cadd (r 42 z) (r 45 z)) by (ad 30%nat 42%nat 45%nat).
    assert (R4 : forall z, r 48 z = r 30 (z + 512)) by (ro 32%nat 30%nat 512).
    assert (M4 : forall z, r 49 z = cmul (r 48 z) (r 9 z)) by (mu 33%nat 48%nat 9%nat).
    assert (A4 : forall z, r 50 z = cadd (r 46 z) (r 49 z)) by (ad 34%nat 46%nat 49%nat).
    assert (R5 : forall z, r 52 z = r 30 (z + 640)) by (ro 36%nat 30%nat 640).
    assert (M5 : forall z, r 53 z = cmul (r 52 z) (r 10 z)) by (mu 37%nat 52%nat 10%nat).
    assert (A5 : forall z, r 54 z = cadd (r 50 z) (r 53 z)) by (ad 38%nat 50%nat 53%nat).
    assert (R6 : forall z, r 56 z = r 30 (z + 768)) by (ro 40%nat 30%nat 768).
    assert (M6 : forall z, r 57 z = cmul (r 56 z) (r 11 z)) by (mu 41%nat 56%nat 11%nat).
    assert (A6 : forall z, r 58 z = cadd (r 54 z) (r 57 z)) by (ad 42%nat 54%nat 57%nat).
    assert (R7 : forall z, r 60 z = r 30 (z + 896)) by (ro 44%nat 30%nat 896).
    assert (M7 : forall z, r 61 z = cmul (r 60 z) (r 12 z)) by (mu 45%nat 60%nat 12%nat).
    assert (A7 : forall z, r 62 z = cadd (r 58 z) (r 61 z)) by (ad 46%nat 58%nat 61%nat).
    rewrite A7, A6, A5, A4, A3, A2, A1, A0, M0, M1, M2, M3, M4, M5, M6, M7, R0, R1, R2, R3, R4, R5, R6, R7.
    rewrite csum8. change (5 + 0)%nat with 5%nat. change (5 + 1)%nat with 6%nat. change (5 + 2)%nat with 7%nat. change (5 + 3)%nat with 8%nat. change (5 + 4)%nat with 9%nat. change (5 + 5)%nat with 10%nat. change (5 + 6)%nat with 11%nat. change (5 + 7)%nat with 12%nat.
    change (128 * Z.of_nat 0) with 0. change (128 * Z.of_nat 1) with 128. change (128 * Z.of_nat 2) with 256. change (128 * Z.of_nat 3) with 384. change (128 * Z.of_nat 4) with 512. change (128 * Z.of_nat 5) with 640. change (128 * Z.of_nat 6) with 768. change (128 * Z.of_nat 7) with 896.
    reflexivity.
  Qed.
  Lemma fc1_fold z : r 77 z = cadd (csum 128 (fun t => r 62 (z + Z.of_nat t))) (r 13 z).
  Proof using N2.
    assert (E77 : forall z, r 77 z = cadd (r 76 z) (r 13 z)) by (ad 61%nat 76%nat 13%nat).
    assert (E76 : forall z, r 76 z = csum (2 ^ 7) (fun t => r 62 (z + 1 * Z.of_nat t))) by (loop 7%nat 1 62%nat 47%nat).
    rewrite E77, E76. apply f_equal2; [|reflexivity]. apply csum_ext. intros t _. apply f_equal. lia.
  Qed.
  Lemma square2 z : r 78 z = square (r 77 z). Proof using. revert z. mu 62%nat 77%nat 77%nat. Qed.
  Lemma masked z : r 79 z = cmul (encodedMask (Z.to_nat (z mod 8192))) (r 78 z).
  Proof using N2 D.
    rewrite <- (placed_at N encodedMask z N2 D). exact (zreg_pt N [placed encodedMask] (cnn_inputs w image) (xerase cnn_prog) 63 78 0 z eq_refl ltac:(lt)).
  Qed.
  Lemma spread z : r 87 z = csum 16 (fun k => r 79 (z - Z.of_nat k)).
  Proof using N2.
    assert (E : forall z, r 87 z = csum (2 ^ 4) (fun t => r 79 (z + (-1) * Z.of_nat t))) by (loop 4%nat (-1) 79%nat 64%nat).
    rewrite E. apply csum_ext. intros t _. apply f_equal. lia.
  Qed.
  Lemma out_sum z : r 101 z = cadd (csum 64 (fun u => cmul (r 87 (z + 128 * Z.of_nat u)) (r 14 (z + 128 * Z.of_nat u)))) (r 15 z).
  Proof using N2.
    assert (E88 : forall z, r 88 z = cmul (r 87 z) (r 14 z)) by (mu 72%nat 87%nat 14%nat).
    assert (E100 : forall z, r 100 z = csum (2 ^ 6) (fun t => r 88 (z + 128 * Z.of_nat t))) by (loop 6%nat 128 88%nat 73%nat).
    assert (E101 : forall z, r 101 z = cadd (r 100 z) (r 15 z)) by (ad 85%nat 100%nat 15%nat).
    rewrite E101, E100. apply f_equal2; [|reflexivity]. apply csum_ext. intros t _. apply E88.
  Qed.
  (** *** inputs *)
  Lemma r_in a v z : (a < 16)%nat -> nth a (cnn_inputs w image) zslots = placed v -> r a z = v (Z.to_nat (z mod 8192)).
  Proof using N2 D. intros H E. rewrite zreg_in by exact H. rewrite E. apply placed_at; assumption. Qed.
  Lemma r_image z : r 0 z = filled (imageWrites image) (Z.to_nat (z mod 4096)).
  Proof using N2 D. rewrite (r_in 0 (encodedImage image)) by (lia || reflexivity). apply doubled_at. Qed.
  Lemma r_kernel n z : (n < 4)%nat -> r (1 + n) z = filled (kernelWrites w n) (Z.to_nat (z mod 4096)).
  Proof using N2 D.
    intros H. rewrite (r_in (1 + n) (encodedKernel w n)); [apply doubled_at|lia|]. do 4 (destruct n as [|n]; [reflexivity|]). lia.
  Qed.
  Lemma r_fc1 i z : (i < 8)%nat -> r (5 + i) z = encodedFC1 w i (Z.to_nat (z mod 8192)).
  Proof using N2 D.
    intros H. apply r_in; [lia|]. do 8 (destruct i as [|i]; [reflexivity|]). lia.
  Qed.

  (** *** convolution *)
  Lemma conv_period z : r 29 (z + 1024) = r 29 z.
  Proof using N2 D.
    assert (P : forall z, r 25 (z + 4096) = r 25 z).
    { intros y. rewrite !conv_sum. rewrite !(r_kernel 0), !(r_kernel 1), !(r_kernel 2), !(r_kernel 3), !r_image by lia.
      replace (y + 4096 + 1) with (y + 1 + 1 * 4096) by lia. replace (y + 4096 + 14) with (y + 14 + 1 * 4096) by lia. replace (y + 4096 + 15) with (y + 15 + 1 * 4096) by lia.
      replace (y + 4096) with (y + 1 * 4096) by lia. rewrite !Z_mod_plus_full. reflexivity. }
    rewrite !conv_fold. replace (z + 1024 + 2048) with (z + 3072) by lia. replace (z + 1024 + 1024) with (z + 2048) by lia. replace (z + 1024 + 3072) with (z + 4096) by lia. rewrite P. ring.
  Qed.
  Lemma conv_at i j k : (i < 5)%nat -> (j < 13)%nat -> (k < 13)%nat -> r 29 (Z.of_nat (196 * i + 14 * j + k)) = conv w image i j k.
  Proof using N2 D.
    intros Hi Hj Hk. set (x := Z.of_nat (196 * i + 14 * j + k)).
    assert (I : forall dj dk b c, (dj < 2)%nat -> (dk < 2)%nat -> (b < 2)%nat -> (c < 2)%nat -> r 0 (x + 1024 * Z.of_nat (2 * b + c) + Z.of_nat (14 * dj + dk)) = image (2 * j + (2 * dj + b))%nat (2 * k + (2 * dk + c))%nat).
    { intros dj dk b c H1 H2 H3 H4. rewrite r_image. replace (Z.to_nat _) with (196 * i + 14 * (j + dj) + (k + dk) + 1024 * (2 * b + c))%nat.
      - rewrite image_at by lia. f_equal; lia.
      - rewrite Z.mod_small by (unfold x; lia). unfold x. lia. }
    assert (K : forall dj dk b c, (dj < 2)%nat -> (dk < 2)%nat -> (b < 2)%nat -> (c < 2)%nat -> r (1 + (2 * dj + dk)) (x + 1024 * Z.of_nat (2 * b + c)) = kernels w i (2 * dj + b)%nat (2 * dk + c)%nat).
    { intros dj dk b c H1 H2 H3 H4. rewrite r_kernel by lia. replace (Z.to_nat _) with (196 * i + 14 * j + k + 1024 * (2 * b + c))%nat.
      - rewrite kernel_at by lia. f_equal; f_equal; f_equal; [symmetry; apply (Nat.div_unique _ 2 dj dk); lia|symmetry; apply (Nat.mod_unique _ 2 dj dk); lia].
      - rewrite Z.mod_small by (unfold x; lia). unfold x. lia. }
    assert (I' : forall dj dk b c y n, (dj < 2)%nat -> (dk < 2)%nat -> (b < 2)%nat -> (c < 2)%nat -> y = x + 1024 * Z.of_nat (2 * b + c) -> n = (2 * dj + dk)%nat ->
       cmul (r 0 (y + Z.of_nat (14 * dj + dk))) (r (1 + n) y) = cmul (kernels w i (2 * dj + b)%nat (2 * dk + c)%nat) (image (2 * j + (2 * dj + b))%nat (2 * k + (2 * dk + c))%nat)).
    { intros dj dk b c y n H1 H2 H3 H4 -> ->. rewrite I, K by assumption. ring. }
    assert (F : forall b c y, (b < 2)%nat -> (c < 2)%nat -> y = x + 1024 * Z.of_nat (2 * b + c) ->
      r 25 y = csum 2 (fun dj => csum 2 (fun dk => cmul (kernels w i (2 * dj + b)%nat (2 * dk + c)%nat) (image (2 * j + (2 * dj + b))%nat (2 * k + (2 * dk + c))%nat)))).
    { intros b c y Hb Hc Ey. rewrite conv_sum. unfold csum. cbn [ksum].
      rewrite <- (I' 0%nat 0%nat b c y 0%nat) by (trivial; lia). rewrite <- (I' 0%nat 1%nat b c y 1%nat) by (trivial; lia). rewrite <- (I' 1%nat 0%nat b c y 2%nat) by (trivial; lia). rewrite <- (I' 1%nat 1%nat b c y 3%nat) by (trivial; lia).
      cbn [Nat.mul Nat.add Z.of_nat Pos.of_succ_nat Pos.succ]. rewrite Z.add_0_r. ring. }
    rewrite conv_fold. rewrite (F 0%nat 0%nat x), (F 1%nat 0%nat (x + 2048)), (F 0%nat 1%nat (x + 1024)), (F 1%nat 1%nat (x + 3072)) by lia.
    unfold conv. rewrite tsum_csum. rewrite (csum_ext 4 _ (fun a => csum 4 (fun b => cmul (kernels w i a b) (image (2 * j + a)%nat (2 * k + b)%nat)))) by (intros; apply tsum_csum).
    unfold csum. cbn [ksum]. cbn [Nat.mul Nat.add]. ring.
  Qed.
  (** *** first fully connected layer *)
  Lemma square1_mod z : r 30 z = r 30 (z mod 1024).
  Proof using N2 D. apply periodic; [lia|]. intros y. rewrite !square1, conv_period. reflexivity. Qed.
  Lemma hidden_at u : (u < 64)%nat -> r 77 (128 * Z.of_nat u) = hidden w image u.
  Proof using N2 D.
    intros Hu. rewrite fc1_fold. unfold hidden. apply f_equal2.
    - rewrite tsum_csum. rewrite (csum_ext 5 _ (fun i => csum 13 (fun j => csum 13 (fun k => cmul (r 30 (Z.of_nat (196 * i + 14 * j + k))) (FC1 w (i + 5 * (j * 13 + k))%nat u))))).
      2:{ intros i Hi. rewrite tsum_csum. apply csum_ext. intros j Hj. rewrite tsum_csum. apply csum_ext. intros k Hk. rewrite square1, conv_at by assumption. reflexivity. }
      rewrite <- (fc1_sum w u (fun x => r 30 (Z.of_nat x))). set (G := fun x : nat => cmul (r 30 (Z.of_nat x)) (tempFC1 w u x)).
      change 1024%nat with (8 * 128)%nat. rewrite csum_mul.
      rewrite <- (csum_rotate8 u (fun v => csum 128 (fun t => G (128 * v + t)%nat))). rewrite csum_swap. apply csum_ext. intros t Ht. rewrite fc1_terms. apply csum_ext. intros i Hi. unfold G.
      rewrite r_fc1 by exact Hi. unfold encodedFC1. rewrite (Z.mod_small (128 * Z.of_nat u + Z.of_nat t)) by lia.
      replace (Z.to_nat (128 * Z.of_nat u + Z.of_nat t)) with (128 * u + t)%nat by lia.
      rewrite <- (Nat.div_unique (128 * u + t) 128 u t) by lia. rewrite <- (Nat.mod_unique (128 * u + t) 128 u t) by lia. apply f_equal2; [|reflexivity].
      rewrite square1_mod. symmetry. rewrite square1_mod. apply f_equal. pose proof (Nat.div_mod (i + u) 8 ltac:(lia)) as DM. set (m := ((i + u) mod 8)%nat) in *. set (q := ((i + u) / 8)%nat) in *.
      replace (128 * Z.of_nat u + Z.of_nat t + 128 * Z.of_nat i) with (Z.of_nat (128 * m + t) + Z.of_nat q * 1024) by lia. rewrite Z_mod_plus_full. reflexivity.
    - rewrite (r_in 13 (encodedB1 w)) by (lia || reflexivity). rewrite Z.mod_small by lia. replace (Z.to_nat (128 * Z.of_nat u)) with (u * 128)%nat by lia. apply b1_at. exact Hu.
  Qed.
  (** *** second fully connected layer *)
  Lemma spread_at u c : (u < 64)%nat -> (c < 10)%nat -> r 87 (Z.of_nat c + 128 * Z.of_nat u) = square (hidden w image u).
  Proof using N2 D.
    intros Hu Hc. rewrite spread. rewrite (csum_single 16 _ c); [|lia|].
    - replace (Z.of_nat c + 128 * Z.of_nat u - Z.of_nat c) with (128 * Z.of_nat u) by lia. rewrite masked, square2, hidden_at by exact Hu. rewrite Z.mod_small by lia. unfold encodedMask.
      replace (Z.to_nat (128 * Z.of_nat u)) with (u * 128)%nat by lia. rewrite Nat.mod_mul by lia. cbn [Nat.eqb]. ring.
    - intros k Hk NE. rewrite masked. generalize (r 78 (Z.of_nat c + 128 * Z.of_nat u - Z.of_nat k)). intros v. unfold encodedMask. remember (Z.of_nat c + 128 * Z.of_nat u - Z.of_nat k) as y eqn:Ey.
      destruct (Nat.eqb_spec (Z.to_nat (y mod 8192) mod 128) 0) as [E|E]; [exfalso|ring]. apply (f_equal Z.of_nat) in E. rewrite Nat2Z.inj_mod, Z2Nat.id in E by (apply Z.mod_pos_bound; lia).
      change (Z.of_nat 128) with 128 in E. rewrite <- Znumtheory.Zmod_div_mod in E by (try lia; exists 64; reflexivity). subst y. apply Z.mod_divide in E; [|lia]. destruct E as [q E]. lia.
  Qed.
  Theorem cnn_slots c : (c < 10)%nat -> nth 101 (kplain_run N [placed encodedMask] (xerase cnn_prog) (cnn_inputs w image)) zslots c = cnn_out w image c.
  Proof using N2 D.
    intros Hc. assert (HB : 8192 <= Z.of_nat (N / 2)) by (apply Z.divide_pos_le; [apply half_pos; exact N2|exact D]).
    assert (E : r 101 (Z.of_nat c) = nth 101 (kplain_run N [placed encodedMask] (xerase cnn_prog) (cnn_inputs w image)) zslots c).
    { unfold zreg. f_equal. rewrite Z.mod_small by lia. apply Nat2Z.id. }
    rewrite <- E, out_sum. unfold cnn_out. apply f_equal2.
    - rewrite tsum_csum. apply csum_ext. intros u Hu. rewrite spread_at by assumption. apply f_equal. rewrite (r_in 14 (encodedFC2 w)) by (lia || reflexivity). rewrite Z.mod_small by lia. unfold encodedFC2.
      replace (Z.to_nat (Z.of_nat c + 128 * Z.of_nat u)) with (128 * u + c)%nat by lia.
      rewrite <- (Nat.div_unique (128 * u + c) 128 u c) by lia. rewrite <- (Nat.mod_unique (128 * u + c) 128 u c) by lia.
      replace (c <? 10)%nat with true by (symmetry; apply Nat.ltb_lt; lia). replace (u <? 64)%nat with true by (symmetry; apply Nat.ltb_lt; lia). reflexivity.
    - rewrite (r_in 15 (encodedB2 w)) by (lia || reflexivity). rewrite Z.mod_small by lia. rewrite Nat2Z.id. apply b2_at. exact Hc.
  Qed.
End Prog.
