From Verif Require Import Base FloatModel.
From Flocq Require Import Core BinarySingleNaN Relative.
From Coq Require Import Reals Lra Psatz.
Open Scope R_scope.

Local Notation fexp64 := (SpecFloat.fexp 53 1024).
Definition rnd (x : R) : R := round radix2 fexp64 ZnearestE x.
Definition u : R := / 2 * bpow radix2 (-53 + 1).
Definition eta : R := bpow radix2 (-1000).

Lemma u_val : u = / IZR (2 ^ 53).
Proof. unfold u. cbn. field. Qed.

Lemma u_small : 0 < u <= / 9007199254740992.
Proof. rewrite u_val. change (2 ^ 53)%Z with 9007199254740992%Z. split; [apply Rinv_0_lt_compat|]; lra. Qed.

Lemma eta_pos : 0 < eta.
Proof. apply bpow_gt_0. Qed.
Lemma eta_small : eta <= u / 1000000.
Proof.
  unfold eta. apply Rle_trans with (bpow radix2 (-80)); [apply bpow_le; lia|].
  rewrite u_val. cbn. lra.
Qed.

Lemma rnd_err x : Rabs (rnd x - x) <= u * Rabs x + eta.
Proof.
  destruct (relative_error_N_FLT'_ex radix2 (-1074) 53 ltac:(reflexivity) (fun n => negb (Z.even n)) x)
    as (e & t & He & Ht & _ & E).
  unfold rnd. change fexp64 with (FLT_exp (-1074) 53). rewrite E.
  replace (x * (1 + e) + t - x) with (x * e + t) by ring.
  eapply Rle_trans; [apply Rabs_triang|]. apply Rplus_le_compat.
  - rewrite Rabs_mult, Rmult_comm. apply Rmult_le_compat_r; [apply Rabs_pos|].
    eapply Rle_trans; [exact He|]. fold (u_ro radix2 53) in *. change (u_ro radix2 53) with u.
    apply Rle_trans with (u / 1); [|lra].
    unfold Rdiv. apply Rmult_le_compat_l; [destruct u_small; lra|].
    apply Rinv_le; [lra|]. destruct u_small; lra.
  - eapply Rle_trans; [exact Ht|]. unfold eta.
    apply Rle_trans with (bpow radix2 (-1074)).
    + pose proof (bpow_ge_0 radix2 (-1074)). lra.
    + apply bpow_le. lia.
Qed.

Lemma rnd_nonneg x : 0 <= x -> 0 <= rnd x.
Proof.
  intros H. unfold rnd. rewrite <- (round_0 radix2 fexp64 ZnearestE).
  apply round_le; [apply FLT_exp_valid; reflexivity|apply valid_rnd_N|assumption].
Qed.

Lemma no_overflow x : Rabs x <= IZR (2 ^ 70) -> Rlt_bool (Rabs (rnd x)) (bpow radix2 1024) = true.
Proof.
  intros H. apply Rlt_bool_true.
  pose proof (rnd_err x). pose proof u_small. pose proof eta_small. pose proof eta_pos.
  assert (Rabs (rnd x) <= 2 * IZR (2 ^ 70)).
  { replace (rnd x) with (rnd x - x + x) by ring. eapply Rle_trans; [apply Rabs_triang|].
    pose proof (Rabs_pos x). change (2 ^ 70)%Z with 1180591620717411303424%Z in *. nra. }
  eapply Rle_lt_trans; [eassumption|].
  rewrite <- mult_IZR. change (bpow radix2 1024) with (IZR (Zpower 2 1024)). apply IZR_lt.
  reflexivity.
Qed.

(** the three operations on finite arguments *)
Lemma f_of_int_ok z : (Z.abs z <= 2 ^ 70)%Z -> B2R (f_of_int z) = rnd (IZR z) /\ is_finite (f_of_int z) = true.
Proof.
  intros H. unfold f_of_int.
  pose proof (binary_normalize_correct 53 1024 eq_refl eq_refl mode_NE z 0 false) as C. cbv zeta in C.
  assert (E : F2R (Float radix2 z 0) = IZR z) by (unfold F2R; cbn; ring).
  rewrite E in C. change (round radix2 fexp64 (round_mode mode_NE) (IZR z)) with (rnd (IZR z)) in C.
  rewrite no_overflow in C; [tauto|]. rewrite <- abs_IZR. apply IZR_le. exact H.
Qed.

Lemma f_div_ok x y : is_finite x = true -> B2R y <> 0 -> Rabs (B2R x / B2R y) <= IZR (2 ^ 70) ->
  B2R (f_div x y) = rnd (B2R x / B2R y) /\ is_finite (f_div x y) = true.
Proof.
  intros Fx Ny H. unfold f_div.
  pose proof (Bdiv_correct 53 1024 eq_refl eq_refl mode_NE x y Ny) as C.
  change (round radix2 fexp64 (round_mode mode_NE) (B2R x / B2R y)) with (rnd (B2R x / B2R y)) in C.
  rewrite no_overflow in C by assumption. rewrite Fx in C. tauto.
Qed.

Lemma f_add_ok x y : is_finite x = true -> is_finite y = true -> Rabs (B2R x + B2R y) <= IZR (2 ^ 70) ->
  B2R (f_add x y) = rnd (B2R x + B2R y) /\ is_finite (f_add x y) = true.
Proof.
  intros Fx Fy H. unfold f_add.
  pose proof (Bplus_correct 53 1024 eq_refl eq_refl mode_NE x y Fx Fy) as C.
  change (round radix2 fexp64 (round_mode mode_NE) (B2R x + B2R y)) with (rnd (B2R x + B2R y)) in C.
  rewrite no_overflow in C by assumption. tauto.
Qed.

(** one term float64(y)/float64(q) *)
Lemma term_ok y q : (0 <= y < q)%Z -> (q < 2 ^ 64)%Z ->
  let t := f_div (f_of_int y) (f_of_int q) in
  is_finite t = true /\ 0 <= B2R t /\ Rabs (B2R t - IZR y / IZR q) <= 5 * u.
Proof.
  intros Hy Hq t.
  destruct (f_of_int_ok y) as [Ey Fy]; [lia|].
  destruct (f_of_int_ok q) as [Eq Fq]; [lia|].
  pose proof u_small as [U0 U1]. pose proof eta_small as E1. pose proof eta_pos as E0.
  pose proof (rnd_err (IZR y)) as Ry. pose proof (rnd_err (IZR q)) as Rq.
  rewrite <- Ey in Ry. rewrite <- Eq in Rq.
  set (a := B2R (f_of_int y)) in *. set (b := B2R (f_of_int q)) in *.
  assert (Y0 : 0 <= IZR y) by (apply IZR_le; lia).
  assert (Q1 : 1 <= IZR q) by (apply IZR_le; lia).
  assert (YQ : IZR y <= IZR q) by (apply IZR_le; lia).
  rewrite (Rabs_pos_eq (IZR y)) in Ry by lra. rewrite (Rabs_pos_eq (IZR q)) in Rq by lra.
  apply Rabs_le_inv in Ry, Rq.
  assert (A0 : 0 <= a) by (rewrite Ey; apply rnd_nonneg; lra).
  assert (B1 : IZR q * (1 - 2 * u) <= b) by nra.
  assert (B0 : 0 < b) by nra.
  assert (D0 : 0 <= a / b) by (apply Rmult_le_pos; [assumption|left; apply Rinv_0_lt_compat; assumption]).
  assert (YQ1 : 0 <= IZR y / IZR q <= 1).
  { split; [apply Rmult_le_pos; [assumption|left; apply Rinv_0_lt_compat; lra]|].
    apply Rmult_le_reg_r with (IZR q); [lra|]. unfold Rdiv. rewrite Rmult_assoc, Rinv_l by lra. lra. }
  assert (DD : Rabs (a / b - IZR y / IZR q) <= 3 * u).
  { replace (a / b - IZR y / IZR q) with (((a - IZR y) + (IZR y / IZR q) * (IZR q - b)) / b) by (field; lra).
    unfold Rdiv at 1. rewrite Rabs_mult, (Rabs_pos_eq (/ b)) by (left; apply Rinv_0_lt_compat; assumption).
    apply Rmult_le_reg_r with b; [assumption|]. rewrite Rmult_assoc, Rinv_l, Rmult_1_r by lra.
    set (w := IZR y / IZR q) in *. apply Rabs_le. 
    assert (IZR y = w * IZR q) by (unfold w; field; lra). nra. }
  assert (AB : a / b <= 1 + 3 * u) by (apply Rabs_le_inv in DD; lra).
  destruct (f_div_ok (f_of_int y) (f_of_int q)) as [Et Ft]; [assumption|fold b; lra| |].
  { fold a b. rewrite Rabs_pos_eq by assumption. change (2 ^ 70)%Z with 1180591620717411303424%Z. lra. }
  fold t in Et, Ft. fold a b in Et.
  split; [assumption|]. split; [rewrite Et; apply rnd_nonneg; assumption|].
  rewrite Et. pose proof (rnd_err (a / b)) as Rt. rewrite (Rabs_pos_eq (a / b)) in Rt by assumption.
  replace (rnd (a / b) - IZR y / IZR q) with ((rnd (a / b) - a / b) + (a / b - IZR y / IZR q)) by ring.
  eapply Rle_trans; [apply Rabs_triang|]. nra.
Qed.

(** the exact sum of quotients *)
Definition qsum (l : list (Z * Z)) : R := fold_right (fun yq s => IZR (fst yq) / IZR (snd yq) + s) 0 l.

Definition okyq (yq : Z * Z) : Prop := (0 <= fst yq < snd yq)%Z /\ (snd yq < 2 ^ 64)%Z.

Lemma qsum_app l1 l2 : qsum (l1 ++ l2) = qsum l1 + qsum l2.
Proof.
  unfold qsum. induction l1 as [|x l IH]; cbn [fold_right app]; [ring|]. rewrite IH. ring.
Qed.

Lemma qsum_bound l : Forall okyq l -> 0 <= qsum l <= INR (length l).
Proof.
  induction 1 as [|[y q] l [H1 H2] _ IH]; cbn [qsum fold_right length fst snd] in *; [cbn; lra|].
  rewrite S_INR. fold (qsum l).
  assert (0 <= IZR y / IZR q <= 1); [|lra].
  assert (0 <= IZR y) by (apply IZR_le; lia). assert (IZR y < IZR q) by (apply IZR_lt; lia).
  split; [apply Rmult_le_pos; [assumption|left; apply Rinv_0_lt_compat; lra]|].
  apply Rmult_le_reg_r with (IZR q); [lra|]. unfold Rdiv. rewrite Rmult_assoc, Rinv_l by lra. lra.
Qed.

Definition fstep (s : f64) (yq : Z * Z) := f_add s (f_div (f_of_int (fst yq)) (f_of_int (snd yq))).

Lemma fsum_ok l : Forall okyq l -> (length l <= 32)%nat ->
  let s := fold_left fstep l (B754_zero false) in
  is_finite s = true /\ 0 <= B2R s /\ Rabs (B2R s - qsum l) <= INR (length l) * (48 * u).
Proof.
  induction l as [|[y q] l IH] using rev_ind; intros F L; cbn zeta.
  - cbn. split; [reflexivity|]. split; [lra|]. rewrite Rminus_0_r, Rabs_R0. lra.
  - rewrite app_length in L. cbn [length] in L.
    apply Forall_app in F. destruct F as [F1 F2]. inversion F2 as [|? ? [Hy Hq] _]; subst. cbn [fst snd] in Hy, Hq.
    rewrite fold_left_app. cbn [fold_left].
    destruct (IH F1 ltac:(lia)) as (Fs & S0 & SE). clear IH.
    set (s := fold_left fstep l (B754_zero false)) in *.
    destruct (term_ok y q Hy Hq) as (Ft & T0 & TE). unfold fstep at 1 2 3. cbn [fst snd].
    set (t := f_div (f_of_int y) (f_of_int q)) in *.
    pose proof (qsum_bound l F1) as QB.
    assert (LR : INR (length l) <= 31).
    { replace 31 with (INR 31) by (cbn; lra). apply le_INR. lia. }
    pose proof (pos_INR (length l)) as L0.
    pose proof u_small as [U0 U1]. pose proof eta_small as E1. pose proof eta_pos as E0.
    pose proof (qsum_bound [(y, q)] F2) as YB. cbn [qsum fold_right length fst snd INR] in YB. 
    apply Rabs_le_inv in SE, TE.
    assert (ST : 0 <= B2R s + B2R t <= 33) by nra.
    destruct (f_add_ok s t Fs Ft) as [Er Fr].
    { rewrite Rabs_pos_eq by lra. change (2 ^ 70)%Z with 1180591620717411303424%Z. lra. }
    split; [assumption|]. split; [rewrite Er; apply rnd_nonneg; lra|].
    rewrite Er, qsum_app, app_length, plus_INR. cbn [qsum fold_right length fst snd INR].
    pose proof (rnd_err (B2R s + B2R t)) as RE. rewrite (Rabs_pos_eq (B2R s + B2R t)) in RE by lra.
    apply Rabs_le_inv in RE. apply Rabs_le. nra.
Qed.

Lemma round_int x f : round radix2 (FIX_exp 0) f x = IZR (f x).
Proof.
  unfold round, F2R, scaled_mantissa, cexp, FIX_exp. cbn [Fnum Fexp Z.opp bpow].
  rewrite !Rmult_1_r. reflexivity.
Qed.

Lemma trunc_floor x : 0 <= B2R x -> IZR (f_trunc x) <= B2R x < IZR (f_trunc x) + 1 /\ (0 <= f_trunc x)%Z.
Proof.
  intros H. unfold f_trunc. pose proof (Btrunc_correct 53 1024 eq_refl x) as C.
  rewrite round_int in C. apply eq_IZR in C. rewrite C, Ztrunc_floor by assumption.
  split; [split; [apply Zfloor_lb|apply Zfloor_ub]|]. apply Zfloor_lub. exact H.
Qed.

(** the float quotient is within 2^-40 of a correct floor *)
Lemma f_quot_real l : Forall okyq l -> (length l <= 32)%nat ->
  let v := f_quot l in
  (0 <= v)%Z /\ - / IZR (2 ^ 40) < qsum l - IZR v < 1 + / IZR (2 ^ 40).
Proof.
  intros F L v. destruct (fsum_ok l F L) as (Fs & S0 & SE).
  unfold v, f_quot. change (fun s yq => f_add s (f_div (f_of_int (fst yq)) (f_of_int (snd yq)))) with fstep.
  set (s := fold_left fstep l (B754_zero false)) in *.
  destruct (trunc_floor s S0) as [[T1 T2] T3]. split; [assumption|].
  apply Rabs_le_inv in SE.
  assert (LR : INR (length l) <= 32).
  { replace 32 with (INR 32) by (cbn; lra). apply le_INR. lia. }
  pose proof u_small as [U0 U1].
  assert (B : INR (length l) * (48 * u) < / IZR (2 ^ 40)).
  { change (2 ^ 40)%Z with 1099511627776%Z. pose proof (pos_INR (length l)). nra. }
  lra.
Qed.

(** ** integer form *)
Open Scope Z_scope.
Definition qprod (l : list (Z * Z)) : Z := fold_right (fun yq p => snd yq * p) 1 l.
(** sum_i y_i * prod_{j<>i} q_j *)
Fixpoint crt_num (l : list (Z * Z)) : Z :=
  match l with
  | nil => 0
  | (y, q) :: t => y * qprod t + q * crt_num t
  end.

Lemma qprod_pos l : Forall okyq l -> 0 < qprod l.
Proof. induction 1 as [|[y q] l [H1 H2] _ IH]; cbn [qprod fold_right fst snd] in *; [lia|]. apply Z.mul_pos_pos; [lia|exact IH]. Qed.

Lemma crt_num_real l : Forall okyq l -> IZR (crt_num l) = (IZR (qprod l) * qsum l)%R.
Proof.
  induction 1 as [|[y q] l [H1 H2] F IH]; cbn [crt_num qprod qsum fold_right fst snd] in *; [cbn; lra|].
  fold (qprod l) (qsum l). rewrite plus_IZR, !mult_IZR, IH. fold (qprod l).
  field. apply Rgt_not_eq. apply IZR_lt. lia.
Qed.

Lemma f_quot_ok l : Forall okyq l -> (length l <= 32)%nat ->
  let v := f_quot l in
  0 <= v <= Z.of_nat (length l) /\
  - qprod l < 2 ^ 40 * (crt_num l - v * qprod l) < (2 ^ 40 + 1) * qprod l.
Proof.
  intros F L v. destruct (f_quot_real l F L) as [V0 V]. fold v in V0, V.
  pose proof (qprod_pos l F) as QP. pose proof (crt_num_real l F) as E.
  apply IZR_lt in QP.
  change (2 ^ 40)%Z with 1099511627776%Z in *.
  split.
  - split; [assumption|]. apply Z.lt_succ_r. apply lt_IZR. rewrite succ_IZR, <- INR_IZR_INZ.
    pose proof (qsum_bound l F). lra.
  - split; apply lt_IZR; repeat (rewrite ?mult_IZR, ?minus_IZR, ?opp_IZR, ?plus_IZR); rewrite E;
      set (P := IZR (qprod l)) in *; set (S := qsum l) in *; nra.
Qed.

(** ** exact ceilings *)
Lemma f_ceil_div_ok a b : 0 <= a < 2 ^ 52 -> 0 < b < 2 ^ 52 -> f_ceil_div a b = (a + b - 1) / b.
Proof.
  intros Ha Hb. unfold f_ceil_div.
  assert (EX : forall z, 0 <= z < 2 ^ 52 -> rnd (IZR z) = IZR z).
  { intros z Hz. unfold rnd. apply round_generic; [apply valid_rnd_N|].
    change fexp64 with (FLT_exp (-1074) 53).
    apply generic_format_FLT. exists (Float radix2 z 0); cbn [Fnum Fexp]; [unfold F2R; cbn; ring| |lia].
    change (Zpower radix2 53) with (2 ^ 53). lia. }
  destruct (f_of_int_ok a) as [Ea Fa]; [lia|]. destruct (f_of_int_ok b) as [Eb Fb]; [lia|].
  rewrite EX in Ea, Eb by lia.
  assert (A0 : (0 <= IZR a)%R) by (apply IZR_le; lia).
  assert (A1 : (IZR a <= 4503599627370496)%R) by (apply IZR_le; lia).
  assert (B1 : (1 <= IZR b)%R) by (apply IZR_le; lia).
  assert (D0 : (0 <= IZR a / IZR b <= IZR a)%R).
  { split; [apply Rmult_le_pos; [assumption|left; apply Rinv_0_lt_compat; lra]|].
    apply Rmult_le_reg_r with (IZR b); [lra|]. unfold Rdiv. rewrite Rmult_assoc, Rinv_l by lra. nra. }
  destruct (f_div_ok (f_of_int a) (f_of_int b)) as [Ed Fd]; [assumption|rewrite Eb; lra| |].
  { rewrite Ea, Eb, Rabs_pos_eq by lra. change (2 ^ 70)%Z with 1180591620717411303424%Z. lra. }
  rewrite Ea, Eb in Ed.
  set (d := f_div (f_of_int a) (f_of_int b)) in *.
  pose proof (Bnearbyint_correct 53 1024 eq_refl mode_UP d) as [C _].
  fold (f_ceil d) in C. 
  rewrite round_int in C. cbn [round_mode] in C.
  pose proof (Btrunc_correct 53 1024 eq_refl (f_ceil d)) as T. rewrite round_int, C, Ztrunc_IZR in T.
  apply eq_IZR in T. unfold f_trunc. rewrite T, Ed.
  (* the ceiling of the rounded quotient *)
  set (n := (a + b - 1) / b).
  assert (N1 : n * b <= a + b - 1 < n * b + b).
  { pose proof (Z.div_mod (a + b - 1) b ltac:(lia)). pose proof (Z.mod_pos_bound (a + b - 1) b ltac:(lia)). fold n in H. nia. }
  assert (N0 : 0 <= n) by (apply Z.div_pos; lia).
  assert (N2 : n <= a) by nia.
  apply Zceil_imp. split.
  - (* n - 1 < rnd (a/b) *)
    rewrite minus_IZR.
    pose proof (rnd_err (IZR a / IZR b)) as RE. rewrite (Rabs_pos_eq (IZR a / IZR b)) in RE by lra.
    apply Rabs_le_inv in RE.
    pose proof u_small as [U0 U1]. pose proof eta_small as E1. pose proof eta_pos as E0.
    (* a >= (n-1) b + 1 *)
    assert (K : (IZR a >= (IZR n - 1) * IZR b + 1)%R).
    { apply Rle_ge. rewrite <- minus_IZR, <- mult_IZR, <- plus_IZR. apply IZR_le. lia. }
    assert (B2 : (IZR b <= 4503599627370496)%R) by (apply IZR_le; lia).
    assert (G : (IZR a / IZR b - u * (IZR a / IZR b) - eta > IZR n - 1)%R); [|lra].
    set (w := (IZR a / IZR b)%R) in *.
    assert (W : (IZR a = w * IZR b)%R) by (unfold w; field; lra).
    assert (u * w * IZR b <= / 2)%R by (rewrite Rmult_assoc, <- W; nra).
    assert (eta * IZR b <= / 4)%R by nra.
    assert ((w - u * w - eta) * IZR b > (IZR n - 1) * IZR b)%R by nra.
    nra.
  - (* rnd (a/b) <= n, by monotonicity *)
    rewrite <- (EX n) by lia. unfold rnd.
    apply round_le; [apply FLT_exp_valid; reflexivity|apply valid_rnd_N|].
    apply Rmult_le_reg_r with (IZR b); [lra|]. unfold Rdiv. rewrite Rmult_assoc, Rinv_l, Rmult_1_r by lra.
    rewrite <- mult_IZR. apply IZR_le. lia.
Qed.
