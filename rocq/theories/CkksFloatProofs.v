(** Facts on the float64 operations of CkksFloat.v. *)
From Verif Require Import Base NumTheory Word BasisExt BasisExtProofs FloatModel FloatProofs CkksFloat.
From Flocq Require Import Core BinarySingleNaN Relative.
From Coq Require Import Reals Lra Psatz.
Open Scope R_scope.

Local Notation fexp64 := (SpecFloat.fexp 53 1024).
Local Notation fmt := (generic_format radix2 fexp64).

Lemma fmt_B2R (x : f64) : fmt (B2R x). Proof. apply generic_format_B2R. Qed.
Lemma rnd_fmt x : fmt x -> rnd x = x. Proof. intros. apply round_generic; [apply valid_rnd_N|assumption]. Qed.
Lemma rnd_le x y : x <= y -> rnd x <= rnd y.
Proof. intros H. apply round_le; [apply FLT_exp_valid; reflexivity|apply valid_rnd_N|exact H]. Qed.
Lemma fmt_rnd x : fmt (rnd x). Proof. apply generic_format_round; [apply FLT_exp_valid; reflexivity|apply valid_rnd_N]. Qed.
Lemma fmt_F2R m e : (Z.abs m < 2 ^ 53)%Z -> (-1074 <= e)%Z -> fmt (F2R (Float radix2 m e)).
Proof. intros H1 H2. change fexp64 with (FLT_exp (-1074) 53). apply generic_format_FLT. exists (Float radix2 m e); cbn [Fnum Fexp]; trivial. Qed.
Lemma fmt_int z : (Z.abs z < 2 ^ 53)%Z -> fmt (IZR z).
Proof. intros H. replace (IZR z) with (F2R (Float radix2 z 0)) by (unfold F2R; cbn; ring). apply fmt_F2R; [assumption|lia]. Qed.
(** nearest: at least as close as any other float *)
Lemma rnd_near x g : fmt g -> Rabs (rnd x - x) <= Rabs (g - x).
Proof. intros H. unfold rnd. destruct (@round_N_pt radix2 fexp64 (@FLT_exp_valid (-1074) 53 eq_refl) (fun n => negb (Z.even n)) x) as [_ X]. apply X. assumption. Qed.

Definition big : R := IZR (2 ^ 1000).
Lemma no_overflow' x : Rabs x <= big -> Rlt_bool (Rabs (rnd x)) (bpow radix2 1024) = true.
Proof.
  intros H. apply Rlt_bool_true.
  pose proof (rnd_err x). pose proof u_small. pose proof eta_small. pose proof eta_pos.
  assert (B : 1 <= big) by (unfold big; apply IZR_le; lia).
  assert (Rabs (rnd x) <= 2 * big).
  { replace (rnd x) with (rnd x - x + x) by ring. eapply Rle_trans; [apply Rabs_triang|]. pose proof (Rabs_pos x). nra. }
  eapply Rle_lt_trans; [eassumption|]. unfold big.
  rewrite <- mult_IZR. change (bpow radix2 1024) with (IZR (Zpower 2 1024)). apply IZR_lt. reflexivity.
Qed.
Lemma f_mul_ok x y : is_finite x = true -> is_finite y = true -> Rabs (B2R x * B2R y) <= big ->
  B2R (f_mul x y) = rnd (B2R x * B2R y) /\ is_finite (f_mul x y) = true.
Proof.
  intros Fx Fy H. unfold f_mul. pose proof (Bmult_correct 53 1024 eq_refl eq_refl mode_NE x y) as C.
  change (round radix2 fexp64 (round_mode mode_NE) (B2R x * B2R y)) with (rnd (B2R x * B2R y)) in C.
  rewrite no_overflow' in C by assumption. rewrite Fx, Fy in C. tauto.
Qed.
Lemma f_div_ok' x y : is_finite x = true -> B2R y <> 0 -> Rabs (B2R x / B2R y) <= big ->
  B2R (f_div x y) = rnd (B2R x / B2R y) /\ is_finite (f_div x y) = true.
Proof.
  intros Fx Ny H. unfold f_div. pose proof (Bdiv_correct 53 1024 eq_refl eq_refl mode_NE x y Ny) as C.
  change (round radix2 fexp64 (round_mode mode_NE) (B2R x / B2R y)) with (rnd (B2R x / B2R y)) in C.
  rewrite no_overflow' in C by assumption. rewrite Fx in C. tauto.
Qed.
Lemma f_add_ok' x y : is_finite x = true -> is_finite y = true -> Rabs (B2R x + B2R y) <= big ->
  B2R (f_add x y) = rnd (B2R x + B2R y) /\ is_finite (f_add x y) = true.
Proof.
  intros Fx Fy H. unfold f_add. pose proof (Bplus_correct 53 1024 eq_refl eq_refl mode_NE x y Fx Fy) as C.
  change (round radix2 fexp64 (round_mode mode_NE) (B2R x + B2R y)) with (rnd (B2R x + B2R y)) in C.
  rewrite no_overflow' in C by assumption. tauto.
Qed.
Lemma f_sub_ok x y : is_finite x = true -> is_finite y = true -> Rabs (B2R x - B2R y) <= big ->
  B2R (f_sub x y) = rnd (B2R x - B2R y) /\ is_finite (f_sub x y) = true.
Proof.
  intros Fx Fy H. unfold f_sub. pose proof (Bminus_correct 53 1024 eq_refl eq_refl mode_NE x y Fx Fy) as C.
  change (round radix2 fexp64 (round_mode mode_NE) (B2R x - B2R y)) with (rnd (B2R x - B2R y)) in C.
  rewrite no_overflow' in C by assumption. tauto.
Qed.
Lemma f_neg_ok x : B2R (f_neg x) = - B2R x /\ is_finite (f_neg x) = is_finite x.
Proof. unfold f_neg. split; [apply B2R_Bopp|apply is_finite_Bopp]. Qed.
Lemma f_lt_ok x y : is_finite x = true -> is_finite y = true -> (f_lt x y = true <-> B2R x < B2R y).
Proof.
  intros Fx Fy. unfold f_lt. rewrite (Bcompare_correct 53 1024 x y Fx Fy).
  destruct (Rcompare_spec (B2R x) (B2R y)); split; intros; try lra; try discriminate; reflexivity.
Qed.
Lemma f_le_ok x y : is_finite x = true -> is_finite y = true -> (f_le x y = true <-> B2R x <= B2R y).
Proof.
  intros Fx Fy. unfold f_le. rewrite (Bcompare_correct 53 1024 x y Fx Fy).
  destruct (Rcompare_spec (B2R x) (B2R y)); split; intros; try lra; try discriminate; reflexivity.
Qed.
Lemma f_eq_ok x y : is_finite x = true -> is_finite y = true -> (f_eq x y = true <-> B2R x = B2R y).
Proof.
  intros Fx Fy. unfold f_eq. rewrite (Bcompare_correct 53 1024 x y Fx Fy).
  destruct (Rcompare_spec (B2R x) (B2R y)); split; intros; try lra; try discriminate; reflexivity.
Qed.
Lemma bool_iff (b : bool) P : (b = true <-> P) -> ~ P -> b = false.
Proof. destruct b; [|reflexivity]. intros [H _] N. exfalso. apply N, H. reflexivity. Qed.

Lemma f_one_ok : B2R f_one = 1 /\ is_finite f_one = true.
Proof. destruct (f_of_int_ok 1) as [E F]; [lia|]. split; [|exact F]. unfold f_one. rewrite E. apply rnd_fmt. apply (fmt_int 1). lia. Qed.
Lemma f_half_ok : B2R f_half = / 2 /\ is_finite f_half = true.
Proof.
  destruct f_one_ok as [E1 F1]. destruct (f_of_int_ok 2) as [E2 F2]; [lia|]. rewrite (rnd_fmt (IZR 2)) in E2 by (apply fmt_int; lia).
  assert (B : Rabs (B2R f_one / B2R (f_of_int 2)) <= big) by (rewrite E1, E2, Rabs_pos_eq by lra; unfold big; apply Rle_trans with (IZR 1); [lra|apply IZR_le; lia]).
  destruct (f_div_ok' f_one (f_of_int 2)) as [E F]; trivial; [rewrite E2; lra|]. split; [|exact F]. unfold f_half. rewrite E, E1, E2.
  replace (1 / 2) with (F2R (Float radix2 1 (-1))) by (unfold F2R; cbn; lra). rewrite rnd_fmt; [unfold F2R; cbn; lra|apply fmt_F2R; lia].
Qed.
Lemma f_zero_ok : B2R f_zero = 0 /\ is_finite f_zero = true. Proof. split; reflexivity. Qed.

Lemma f_floor_ok x : B2R (f_floor x) = IZR (Zfloor (B2R x)) /\ is_finite (f_floor x) = is_finite x.
Proof.
  destruct (Bnearbyint_correct 53 1024 eq_refl mode_DN x) as (C & F & _). rewrite round_int in C. split; [exact C|exact F].
Qed.
Lemma f_trunc_ok x : f_trunc x = Ztrunc (B2R x).
Proof. unfold f_trunc. pose proof (Btrunc_correct 53 1024 eq_refl x) as C. rewrite round_int in C. apply eq_IZR in C. exact C. Qed.
Lemma f_trunc_int x z : B2R x = IZR z -> f_trunc x = z.
Proof. intros E. rewrite f_trunc_ok, E. apply Ztrunc_IZR. Qed.

(** a float with an integer value below 2^63 has no fraction for getConstAndScale *)
Lemma of_int_exact (x : f64) z : is_finite x = true -> B2R x = IZR z -> (Z.abs z <= 2 ^ 70)%Z -> B2R (f_of_int z) = IZR z /\ is_finite (f_of_int z) = true.
Proof. intros F E H. destruct (f_of_int_ok z H) as [A B]. split; [|exact B]. rewrite A. apply rnd_fmt. rewrite <- E. apply fmt_B2R. Qed.
Lemma int64_int (x : f64) z : is_finite x = true -> B2R x = IZR z -> (- 2 ^ 63 <= z < 2 ^ 63)%Z -> f_int64 x = z.
Proof.
  intros F E H. unfold f_int64. rewrite F, (f_trunc_int x z E). cbv zeta.
  destruct (Z.leb_spec (- 2 ^ 63) z); [|lia]. destruct (Z.ltb_spec z (2 ^ 63)); [|lia]. reflexivity.
Qed.

(** ** scaleUpExact *)
Open Scope Z_scope.
(** the integer it reduces: floor of RN(p + 1/2), where p is the product *)
Lemma half_up (p : f64) : is_finite p = true -> (0 <= B2R p)%R -> (B2R p + / 2 <= big)%R ->
  let X := f_trunc (f_add p f_half) in 0 <= X /\ (Rabs (IZR X - B2R p) <= 1)%R /\
    (forall z, B2R p = IZR z -> z <= X <= z + 1 /\ (z < 2 ^ 52 \/ 2 ^ 53 <= z -> X = z)).
Proof.
  intros F P0 PB X. destruct f_half_ok as [Eh Fh].
  destruct (f_add_ok' p f_half F Fh) as [E FE]; [rewrite Eh, Rabs_pos_eq by lra; assumption|]. rewrite Eh in E.
  pose proof (rnd_near (B2R p + / 2) (B2R p) (fmt_B2R p)) as NR. rewrite <- E in NR.
  replace (B2R p - (B2R p + / 2))%R with (- / 2)%R in NR by ring. rewrite Rabs_Ropp, (Rabs_pos_eq (/ 2)) in NR by lra. apply Rabs_le_inv in NR.
  destruct (trunc_floor (f_add p f_half)) as [[T1 T2] T3]; [lra|]. fold X in T1, T2, T3.
  split; [exact T3|]. split; [apply Rabs_le; lra|].
  intros z Ez. assert (ZX : z <= X <= z + 1).
  { split; [apply Z.lt_succ_r; apply lt_IZR; rewrite succ_IZR; lra|apply le_IZR; rewrite plus_IZR; lra]. }
  split; [exact ZX|]. intros [Hz|Hz].
  - assert (z >= 0) by (apply Z.le_ge; apply le_IZR; lra).
    assert (EX : B2R (f_add p f_half) = (B2R p + / 2)%R).
    { rewrite E. apply rnd_fmt. replace (B2R p + / 2)%R with (F2R (Float radix2 (2 * z + 1) (-1))); [apply fmt_F2R; lia|].
      unfold F2R. cbn [Fnum Fexp bpow]. rewrite plus_IZR, mult_IZR, Ez. cbn. lra. }
    assert (X < z + 1); [|lia]. apply lt_IZR. rewrite plus_IZR. lra.
  - (* floats beyond 2^53 are even integers *)
    assert (EV : forall x : f64, (IZR (2 ^ 53) <= B2R x)%R -> exists k, B2R x = IZR (2 * k)).
    { intros x Hx. assert (X0 : (0 < B2R x)%R) by (eapply Rlt_le_trans; [|exact Hx]; apply IZR_lt; lia).
      pose proof (fmt_B2R x) as G. unfold generic_format in G. set (m := Ztrunc (scaled_mantissa radix2 fexp64 (B2R x))) in *.
      assert (C : 1 <= cexp radix2 fexp64 (B2R x)).
      { unfold cexp, SpecFloat.fexp, SpecFloat.emin. assert (53 < mag radix2 (B2R x)); [|lia]. apply mag_gt_bpow. rewrite Rabs_pos_eq by lra. exact Hx. }
      set (e := cexp radix2 fexp64 (B2R x)) in *. exists (m * 2 ^ (e - 1)). rewrite G. unfold F2R. cbn [Fnum Fexp].
      rewrite Z.mul_assoc, (Z.mul_comm 2 m), <- Z.mul_assoc, <- Z.pow_succ_r by lia. rewrite mult_IZR. f_equal. replace (Z.succ (e - 1)) with e by lia.
      change 2 with (radix_val radix2). rewrite IZR_Zpower by lia. reflexivity. }
    assert (Z53 : (IZR (2 ^ 53) <= IZR z)%R) by (apply IZR_le; assumption).
    destruct (EV p) as [k Ek]; [lra|]. destruct (EV (f_add p f_half)) as [k' Ek']; [lra|].
    assert (2 * k = z) by (apply eq_IZR; lra).
    assert (2 * k' <= z + 1) by (apply le_IZR; rewrite plus_IZR; lra). assert (z <= 2 * k') by (apply le_IZR; lra).
    assert (X = 2 * k'); [|lia]. unfold X. apply f_trunc_int. exact Ek'.
Qed.

Definition sgnz (neg : bool) (x : Z) : Z := if neg then - x else x.
(** the signed integer scaleUpExact reduces *)
Definition supInt (v n : f64) : Z :=
  let neg := f_lt v f_zero in sgnz neg (f_trunc (f_add (if neg then f_mul (f_neg n) v else f_mul n v) f_half)).
Lemma sup_prod (v n : f64) : is_finite v = true -> is_finite n = true -> (0 <= B2R n)%R -> (Rabs (B2R n * B2R v) <= big / 4)%R ->
  let p := if f_lt v f_zero then f_mul (f_neg n) v else f_mul n v in
  B2R p = rnd (B2R n * Rabs (B2R v)) /\ is_finite p = true /\ (0 <= B2R p)%R /\ (B2R p + / 2 <= big)%R.
Proof.
  intros Fv Fn N0 HB p. destruct f_zero_ok as [Z0 FZ].
  pose proof (f_lt_ok v f_zero Fv FZ) as LT. rewrite Z0 in LT.
  assert (BG : (4 <= big)%R) by (unfold big; apply IZR_le; lia).
  assert (PP : B2R p = rnd (B2R n * Rabs (B2R v)) /\ is_finite p = true).
  { unfold p. destruct (f_lt v f_zero).
    - destruct LT as [LT _]. specialize (LT eq_refl). destruct (f_neg_ok n) as [EN FN]. destruct (f_mul_ok (f_neg n) v) as [A B]; trivial.
      + rewrite FN. assumption.
      + rewrite EN. replace (- B2R n * B2R v)%R with (- (B2R n * B2R v))%R by ring. rewrite Rabs_Ropp. lra.
      + split; [|exact B]. rewrite A, EN. f_equal. rewrite (Rabs_left (B2R v)) by lra. ring.
    - assert (0 <= B2R v)%R by (apply Rnot_lt_le; intros X; apply LT in X; discriminate). destruct (f_mul_ok n v) as [A B]; trivial; [lra|].
      split; [|exact B]. rewrite A, (Rabs_pos_eq (B2R v)) by assumption. reflexivity. }
  destruct PP as [PE PF]. clearbody p. split; [exact PE|]. split; [exact PF|].
  assert (NN : (0 <= B2R n * Rabs (B2R v))%R) by (apply Rmult_le_pos; [assumption|apply Rabs_pos]).
  split; [rewrite PE; apply rnd_nonneg; assumption|].
  rewrite PE. pose proof (rnd_err (B2R n * Rabs (B2R v))) as RE. rewrite (Rabs_pos_eq (B2R n * Rabs (B2R v))) in RE by assumption. apply Rabs_le_inv in RE.
  rewrite Rabs_mult, (Rabs_pos_eq (B2R n)) in HB by assumption. pose proof u_small. pose proof eta_small. pose proof eta_pos. nra.
Qed.
Lemma scaleUp_ok (v n : f64) q : is_finite v = true -> is_finite n = true -> (0 <= B2R n)%R -> (Rabs (B2R n * B2R v) <= big / 4)%R -> 0 < q < W ->
  exists x, scaleUpExact v n q = Ok x /\ 0 <= x <= q /\ eqz q x (supInt v n).
Proof.
  intros Fv Fn N0 HB Hq. destruct (sup_prod v n Fv Fn N0 HB) as (PE & PF & _). unfold scaleUpExact, supInt.
  set (neg := f_lt v f_zero) in *. set (p := if neg then _ else _) in *. clearbody p.
  set (X := f_trunc (f_add p f_half)) in *.
  exists (if neg then w64 (q - X mod q) else X mod q). pose proof (Z.mod_pos_bound X q ltac:(lia)) as MB.
  assert (XW : w64 (q - X mod q) = q - X mod q) by (apply Z.mod_small; lia).
  split; [destruct p; try discriminate; cbn [rbind]; reflexivity|].
  split; [destruct neg; [rewrite XW|]; lia|].
  unfold sgnz. destruct neg; [|apply eqz_mod]. rewrite XW. exists (1 + X / q). pose proof (Z.div_mod X q ltac:(lia)). lia.
Qed.
(** it is within 1 of the (rounded) product, and equal to it when that is an integer (below 2^52, or from 2^53 on) *)
Lemma supInt_ok (v n : f64) : is_finite v = true -> is_finite n = true -> (0 <= B2R n)%R -> (Rabs (B2R n * B2R v) <= big / 4)%R ->
  (Rabs (IZR (supInt v n) - rnd (B2R n * B2R v)) <= 1)%R /\
  (forall z, rnd (B2R n * B2R v) = IZR z -> Z.abs z < 2 ^ 52 \/ 2 ^ 53 <= Z.abs z -> supInt v n = z).
Proof.
  intros Fv Fn N0 HB. destruct (sup_prod v n Fv Fn N0 HB) as (PE & PF & P0 & PB). unfold supInt.
  pose proof (f_lt_ok v f_zero Fv (proj2 f_zero_ok)) as LT. rewrite (proj1 f_zero_ok) in LT.
  set (neg := f_lt v f_zero) in *. set (p := if neg then _ else _) in *. clearbody p.
  destruct (half_up p PF P0 PB) as (X0 & X1 & X2). set (X := f_trunc (f_add p f_half)) in *. 
  assert (RO : forall x, rnd (- x) = (- rnd x)%R) by (intros; apply round_NE_opp).
  destruct neg; unfold sgnz.
  - destruct LT as [LT _]. specialize (LT eq_refl). rewrite (Rabs_left (B2R v)) in PE by lra.
    replace (B2R n * B2R v)%R with (- (B2R n * - B2R v))%R by ring. rewrite RO, <- PE. split.
    + rewrite opp_IZR. replace (- IZR X - - B2R p)%R with (- (IZR X - B2R p))%R by ring. rewrite Rabs_Ropp. exact X1.
    + intros z Ez Hz. assert (Ez' : B2R p = IZR (- z)) by (rewrite opp_IZR, <- Ez; ring).
      destruct (X2 _ Ez') as [_ X3]. assert (0 <= - z) by (apply le_IZR; rewrite <- Ez'; exact P0). rewrite X3 by lia. lia.
  - assert (V0 : (0 <= B2R v)%R) by (apply Rnot_lt_le; intros Y; apply LT in Y; discriminate). rewrite (Rabs_pos_eq (B2R v)) in PE by assumption.
    rewrite <- PE. split; [exact X1|]. intros z Ez Hz. destruct (X2 _ Ez) as [_ X3]. assert (0 <= z) by (apply le_IZR; rewrite <- Ez; exact P0). apply X3. lia.
Qed.
Lemma supInt_int (v : f64) z : is_finite v = true -> B2R v = IZR z -> Z.abs z < 2 ^ 52 \/ 2 ^ 53 <= Z.abs z < 2 ^ 900 -> supInt v f_one = z.
Proof.
  intros F E H. destruct f_one_ok as [E1 F1]. apply supInt_ok; trivial; try rewrite E1; rewrite ?Rmult_1_l.
  - lra.
  - rewrite E, <- abs_IZR. unfold big. apply Rle_trans with (IZR (2 ^ 998)); [apply IZR_le; assert (2 ^ 52 <= 2 ^ 998) by (apply Z.pow_le_mono_r; lia); assert (2 ^ 900 <= 2 ^ 998) by (apply Z.pow_le_mono_r; lia); lia|].
    change (2 ^ 1000) with (2 ^ 998 * 4). rewrite mult_IZR. lra.
  - rewrite rnd_fmt by apply fmt_B2R. exact E.
  - lia.
Qed.
Lemma supInt_zero (v n : f64) : is_finite v = true -> is_finite n = true -> (0 <= B2R n)%R -> B2R v = 0%R -> supInt v n = 0.
Proof.
  intros F Fn N0 E. apply supInt_ok; trivial; rewrite ?E, ?Rmult_0_r.
  - rewrite Rabs_R0. assert (0 <= big)%R by (unfold big; apply IZR_le; lia). lra.
  - apply round_0. apply valid_rnd_N.
  - lia.
Qed.
