(** C66: StandardDeviation and scaleDown compute what they are named after, up to a stated rounding error. *)
From Verif Require Import Base FloatModel FloatProofs CkksFloat CkksFloatProofs StdDev StdDevProofs.
From Flocq Require Import Core BinarySingleNaN Relative.
From Coq Require Import Reals Lra Psatz.
Open Scope R_scope.

(** ** Specification: mean and (population) standard deviation of a list of reals *)
Definition meanR (xs : list R) : R := fold_right Rplus 0 xs / INR (length xs).
Definition sdR (xs : list R) : R :=
  sqrt (fold_right Rplus 0 (map (fun x => (x - meanR xs) * (x - meanR xs)) xs) / INR (length xs)).
Definition reals (vec : list f64) : list R := map (@B2R 53 1024) vec.

Lemma rsum_lin m l : rsum (map (sq m) l) = rsum (map (sq 0) l) - 2 * m * rsum l + INR (length l) * (m * m).
Proof.
  induction l as [|x l IH]; [cbn; ring|]. cbn [map rsum fold_right]. fold (rsum (map (sq m) l)) (rsum (map (sq 0) l)) (rsum l).
  rewrite IH. cbn [length]. rewrite S_INR. unfold sq. ring.
Qed.
(** around any point: the squares around the mean plus N times the squared distance to the mean *)
Lemma sq_shift l m : (0 < length l)%nat -> rsum (map (sq m) l) = rsum (map (sq (meanR l)) l) + INR (length l) * ((m - meanR l) * (m - meanR l)).
Proof.
  intros H. rewrite (rsum_lin m), (rsum_lin (meanR l)). assert (INR (length l) <> 0) by (apply not_0_INR; lia).
  assert (E : rsum l = INR (length l) * meanR l) by (unfold meanR; fold (rsum l); field; assumption). rewrite E. ring.
Qed.
Lemma sq0_le M l : 0 <= M -> Forall (fun x => Rabs x <= M) l -> rsum (map (sq 0) l) <= INR (length l) * (M * M).
Proof.
  intros HM H. induction H as [|x l Hx H IH]; [cbn; lra|]. cbn [map rsum fold_right]. fold (rsum (map (sq 0) l)).
  cbn [length]. rewrite S_INR. apply rabs_le' in Hx. unfold sq at 1. nra.
Qed.
Lemma rsum_le M l : 0 <= M -> Forall (fun x => Rabs x <= M) l -> Rabs (rsum l) <= INR (length l) * M.
Proof.
  intros HM H. induction H as [|x l Hx H IH]; [cbn; rewrite Rabs_R0; lra|]. cbn [rsum fold_right]. fold (rsum l).
  cbn [length]. rewrite S_INR. eapply Rle_trans; [apply Rabs_triang|]. lra.
Qed.
Lemma sd_eq l : sdR l = sqrt (rsum (map (sq (meanR l)) l) / INR (length l)).
Proof. reflexivity. Qed.
Lemma div_pos a b : 0 <= a -> 0 < b -> 0 <= a / b.
Proof. intros. apply Rmult_le_pos; [assumption|]. apply Rlt_le, Rinv_0_lt_compat; assumption. Qed.
Lemma div_le a b c : 0 < b -> a <= b * c -> a / b <= c.
Proof. intros. apply (Rmult_le_reg_r b); [assumption|]. unfold Rdiv. rewrite Rmult_assoc, Rinv_l by lra. lra. Qed.

Lemma sd_le M l : (0 < length l)%nat -> 0 <= M -> Forall (fun x => Rabs x <= M) l -> 0 <= sdR l <= M.
Proof.
  intros L HM H. split; [apply sqrt_pos|]. rewrite sd_eq. rewrite <- (sqrt_square M HM). apply sqrt_le_1_alt.
  assert (0 < INR (length l)) by (apply lt_0_INR; assumption).
  apply div_le; [assumption|]. pose proof (sq0_le M l HM H). pose proof (sq_shift l 0 L).
  assert (0 <= INR (length l) * ((0 - meanR l) * (0 - meanR l))) by (apply Rmult_le_pos; [lra|apply Rle_0_sqr]). lra.
Qed.
Lemma mean_le M l : (0 < length l)%nat -> 0 <= M -> Forall (fun x => Rabs x <= M) l -> Rabs (meanR l) <= M.
Proof.
  intros L HM H. assert (0 < INR (length l)) by (apply lt_0_INR; assumption). unfold meanR. fold (rsum l).
  unfold Rdiv. rewrite Rabs_mult, (Rabs_pos_eq (/ _)) by (apply Rlt_le, Rinv_0_lt_compat; assumption).
  apply div_le; [assumption|]. apply rsum_le; assumption.
Qed.
(** the square root of a perturbed value *)
Lemma sqrt_err x y al g : 0 <= x -> 0 <= y -> 0 <= al <= 1 -> 0 <= g -> Rabs (x - y) <= al * y + g * g ->
  Rabs (sqrt x - sqrt y) <= al * sqrt y + g.
Proof.
  intros X Y A Gp H. apply rabs_le' in H.
  pose proof (sqrt_pos x) as SX. pose proof (sqrt_pos y) as SY. pose proof (sqrt_sqrt x X) as EX. pose proof (sqrt_sqrt y Y) as EY.
  set (p := sqrt x) in *. set (q := sqrt y) in *. rewrite <- EX, <- EY in H.
  apply rabs_le. split.
  - (* q (1-al) <= p + g *)
    assert (Z : q * (1 - al) <= p + g).
    { apply Rsqr_incr_0_var; [|lra]. unfold Rsqr.
      assert (q * (1 - al) * (q * (1 - al)) <= q * q * (1 - al)).
      { replace (q * (1 - al) * (q * (1 - al))) with (q * q * (1 - al) * (1 - al)) by ring.
        rewrite <- (Rmult_1_r (q * q * (1 - al))) at 2. apply Rmult_le_compat_l; [|lra]. apply Rmult_le_pos; [apply Rle_0_sqr|lra]. }
      assert (0 <= p * g) by (apply Rmult_le_pos; lra). nra. }
    lra.
  - assert (Z : p <= q * (1 + al) + g).
    { apply Rsqr_incr_0_var; [|assert (0 <= q * (1 + al)) by (apply Rmult_le_pos; lra); lra]. unfold Rsqr.
      assert (0 <= q * (1 + al) * g) by (apply Rmult_le_pos; [apply Rmult_le_pos; lra|lra]).
      assert (q * q * (1 + al) <= q * (1 + al) * (q * (1 + al))).
      { replace (q * (1 + al) * (q * (1 + al))) with (q * q * (1 + al) * (1 + al)) by ring.
        rewrite <- (Rmult_1_r (q * q * (1 + al))) at 1. apply Rmult_le_compat_l; [|lra]. apply Rmult_le_pos; [apply Rle_0_sqr|lra]. }
      nra. }
    lra.
Qed.

Lemma sqm_le M m l : 0 <= M -> Rabs m <= 2 * M -> Forall (fun x => Rabs x <= M) l -> rsum (map (sq m) l) <= 9 * INR (length l) * (M * M).
Proof.
  intros HM BM H. induction H as [|x l Hx H IH]; [cbn; lra|].
  cbn [map rsum fold_right length]. fold (rsum (map (sq m) l)). rewrite S_INR. apply rabs_le' in Hx. apply rabs_le' in BM.
  assert (sq m x <= 9 * (M * M)).
  { unfold sq. assert (B : - (3 * M) <= x - m <= 3 * M) by lra. clear - B HM. nra. }
  lra.
Qed.

Section Main.
Variables (M s : R) (vec : list f64) (scale : f64).
Let N := INR (length vec).
Hypothesis L0 : (0 < length vec)%nat.
Hypothesis N_le : N <= IZR (2 ^ 24).
Hypothesis M_lo : bpow radix2 (-300) <= M.
Hypothesis M_hi : M <= bpow radix2 300.
Hypothesis OK : Forall (fun c : f64 => is_finite c = true /\ Rabs (B2R c) <= M) vec.
Hypothesis Fs : is_finite scale = true.
Hypothesis Es : B2R scale = s.
Hypothesis s_lo : bpow radix2 (-300) <= s.
Hypothesis s_hi : s <= bpow radix2 300.

Lemma N1 : 1 <= N. Proof using L0 N_le M_lo M_hi OK Fs Es s_lo s_hi. unfold N. change 1 with (INR 1). apply le_INR. lia. Qed.
Lemma Nu : N * u <= / 100000000.
Proof using L0 N_le M_lo M_hi OK Fs Es s_lo s_hi. pose proof u_small. assert (N * u <= IZR (2 ^ 24) * / 9007199254740992). { apply Rmult_le_compat; try lra. unfold N. apply pos_INR. } 
  change (2 ^ 24)%Z with 16777216%Z in H0. lra. Qed.
Lemma NNu : N * (N * u) <= / 16.
Proof using L0 N_le M_lo M_hi OK Fs Es s_lo s_hi. pose proof u_small. assert (N * u <= IZR (2 ^ 24) * / 9007199254740992). { apply Rmult_le_compat; try lra. unfold N. apply pos_INR. } 
  change (2 ^ 24)%Z with 16777216%Z in *. pose proof N1. assert (0 <= N * u) by (apply Rmult_le_pos; lra).
  assert (N * (N * u) <= 16777216 * (16777216 * / 9007199254740992)) by (apply Rmult_le_compat; lra). lra. Qed.
Lemma Mp : 0 < M. Proof using L0 N_le M_lo M_hi OK Fs Es s_lo s_hi. pose proof (bpow_gt_0 radix2 (-300)). lra. Qed.
Lemma u_bpow : u = bpow radix2 (-53). Proof using. unfold u. rewrite bpow_plus. change (bpow radix2 1) with 2. lra. Qed.
Lemma etaM : eta <= u * u * u * u * u * M.
Proof using L0 N_le M_lo M_hi OK Fs Es s_lo s_hi.
  rewrite u_bpow. rewrite <- !bpow_plus. eapply Rle_trans; [|apply Rmult_le_compat_l; [apply bpow_ge_0|exact M_lo]].
  rewrite <- bpow_plus. unfold eta. apply bpow_le. lia.
Qed.
Lemma etaM2 : eta <= u * u * u * u * u * (M * M).
Proof using L0 N_le M_lo M_hi OK Fs Es s_lo s_hi.
  rewrite u_bpow. rewrite <- !bpow_plus. pose proof Mp.
  assert (bpow radix2 (-300) * bpow radix2 (-300) <= M * M) by (apply Rmult_le_compat; try apply bpow_ge_0; assumption).
  eapply Rle_trans; [|apply Rmult_le_compat_l; [apply bpow_ge_0|exact H0]].
  rewrite <- !bpow_plus. unfold eta. apply bpow_le. lia.
Qed.
Lemma etasM : eta <= u * u * (s * M).
Proof using L0 N_le M_lo M_hi OK Fs Es s_lo s_hi.
  rewrite u_bpow. rewrite <- !bpow_plus. pose proof Mp.
  assert (bpow radix2 (-300) * bpow radix2 (-300) <= s * M) by (apply Rmult_le_compat; try apply bpow_ge_0; assumption).
  eapply Rle_trans; [|apply Rmult_le_compat_l; [apply bpow_ge_0|exact H0]].
  rewrite <- !bpow_plus. unfold eta. apply bpow_le. lia.
Qed.
Lemma N20 : N * 20 <= bpow radix2 30.
Proof using L0 N_le M_lo M_hi OK Fs Es s_lo s_hi. change (bpow radix2 30) with (IZR (2 ^ 30)). change (2 ^ 24)%Z with 16777216%Z in *. change (2^30)%Z with 1073741824%Z. lra. Qed.
Lemma bigb : big = bpow radix2 1000.
Proof using L0 N_le M_lo M_hi OK Fs Es s_lo s_hi. reflexivity. Qed.
Lemma Mbig1 : M * (N * 20) <= big.
Proof using L0 N_le M_lo M_hi OK Fs Es s_lo s_hi.
  rewrite bigb. pose proof N20. pose proof Mp. pose proof N1. eapply Rle_trans; [apply Rmult_le_compat; [lra|lra|exact M_hi|exact H]|]. rewrite <- bpow_plus. apply bpow_le. lia.
Qed.
Lemma Mbig : M * M * (N * 20) <= big.
Proof using L0 N_le M_lo M_hi OK Fs Es s_lo s_hi.
  rewrite bigb. pose proof N20. pose proof Mp. pose proof N1.
  assert (M * M <= bpow radix2 300 * bpow radix2 300) by (apply Rmult_le_compat; lra).
  eapply Rle_trans; [apply Rmult_le_compat; [apply Rle_0_sqr|lra|exact H2|exact H]|]. rewrite <- !bpow_plus. apply bpow_le. lia.
Qed.
Lemma sMbig : 20 * (s * M) <= big.
Proof using L0 N_le M_lo M_hi OK Fs Es s_lo s_hi.
  rewrite bigb. pose proof Mp. pose proof (bpow_gt_0 radix2 (-300)).
  assert (s * M <= bpow radix2 300 * bpow radix2 300) by (apply Rmult_le_compat; lra).
  assert (20 <= bpow radix2 5) by (change (bpow radix2 5) with 32; lra).
  eapply Rle_trans; [apply Rmult_le_compat; [lra| |exact H2|exact H1]|]. { apply Rmult_le_pos; lra. }
  rewrite <- !bpow_plus. apply bpow_le. lia.
Qed.

Lemma n_float : B2R (f_of_int (Z.of_nat (length vec))) = N /\ is_finite (f_of_int (Z.of_nat (length vec))) = true.
Proof using L0 N_le M_lo M_hi OK Fs Es s_lo s_hi.
  assert (Z.of_nat (length vec) <= 2 ^ 24)%Z. { apply le_IZR. rewrite <- INR_IZR_INZ. exact N_le. }
  destruct (f_of_int_ok (Z.of_nat (length vec))) as [E F]. { change (2 ^ 70)%Z with (2 ^ 24 * 2 ^ 46)%Z. lia. }
  split; [|exact F]. rewrite E, rnd_fmt. { unfold N. symmetry. apply INR_IZR_INZ. }
  apply fmt_int. change (2 ^ 53)%Z with (2 ^ 24 * 2 ^ 29)%Z. lia.
Qed.

Definition xs := reals vec.
Lemma xs_len : INR (length xs) = N. Proof using L0 N_le M_lo M_hi OK Fs Es s_lo s_hi. unfold xs, reals, N. rewrite map_length. reflexivity. Qed.
Lemma xs_ok : Forall (fun x => Rabs x <= M) xs.
Proof using L0 N_le M_lo M_hi OK Fs Es s_lo s_hi. unfold xs, reals. apply Forall_map. eapply Forall_impl; [|exact OK]. cbn. tauto. Qed.

(** the mean *)
Lemma mean_ok : let m := f_div (sdSum vec) (f_of_int (Z.of_nat (length vec))) in
  is_finite m = true /\ Rabs (B2R m - meanR xs) <= (2 * N + 2) * (u * M).
Proof using L0 N_le M_lo M_hi OK Fs Es s_lo s_hi.
  pose proof N1 as HN1. pose proof Nu as HNu. pose proof Mp as HM. pose proof etaM as He. pose proof (uu ) as U.
  assert (HNu' : N * u <= / 1000000) by lra.
  destruct (sum_fold M N HM Mbig Mbig1 HN1 HNu' He etaM2 vec f_zero 0 0 OK ltac:(lra) ltac:(unfold N; lra)) as [F1 E1].
  { reflexivity. } { cbn. rewrite Rminus_0_r, Rabs_R0. lra. } { rewrite Rabs_R0. lra. }
  fold (sdSum vec) in F1, E1. rewrite !Rplus_0_l in E1. fold (reals vec) in E1. fold xs in E1. fold N in E1.
  destruct n_float as [EN FN].
  assert (E2 : Rabs (B2R (sdSum vec) / N - meanR xs) <= 2 * N * (u * M)).
  { unfold meanR. fold (rsum xs). rewrite xs_len.
    replace (B2R (sdSum vec) / N - rsum xs / N) with ((B2R (sdSum vec) - rsum xs) * / N) by (field; lra).
    rewrite Rabs_mult, (Rabs_pos_eq (/ N)) by (apply Rlt_le, Rinv_0_lt_compat; lra). apply div_le; [lra|].
    eapply Rle_trans; [exact E1|]. apply Req_le. ring. }
  assert (ML : Rabs (meanR xs) <= M). { apply mean_le; [unfold xs, reals; rewrite map_length; exact L0|lra|exact xs_ok]. }
  assert (uM0 : 0 < u * M) by (apply Rmult_lt_0_compat; lra).
  assert (D1 : 2 * N * (u * M) <= / 1000000 * M). { replace (2 * N * (u * M)) with (2 * (N * u) * M) by ring. apply Rmult_le_compat_r; lra. }
  assert (B2 : Rabs (B2R (sdSum vec) / N) <= M + / 1000000 * M).
  { replace (B2R (sdSum vec) / N) with ((B2R (sdSum vec) / N - meanR xs) + meanR xs) by ring. eapply Rle_trans; [apply Rabs_triang|]. lra. }
  destruct (f_div_ok' (sdSum vec) (f_of_int (Z.of_nat (length vec))) F1) as [ED FD].
  { rewrite EN. lra. } { rewrite EN. pose proof Mbig1 as MB. assert (M * 20 <= M * (N * 20)) by (apply Rmult_le_compat_l; lra). lra. }
  cbv zeta. split; [exact FD|]. rewrite ED, EN. pose proof (rnd_err (B2R (sdSum vec) / N)) as RE.
  replace (rnd (B2R (sdSum vec) / N) - meanR xs) with ((rnd (B2R (sdSum vec) / N) - B2R (sdSum vec) / N) + (B2R (sdSum vec) / N - meanR xs)) by ring.
  eapply Rle_trans; [apply Rabs_triang|].
  assert (u * Rabs (B2R (sdSum vec) / N) <= u * (M + / 1000000 * M)) by (apply Rmult_le_compat_l; lra).
  pose proof (eta_uM M N HM Mbig Mbig1 HN1 HNu' He etaM2) as EE. lra.
Qed.

(** the variance around the computed mean, as computed *)
Lemma var_ok m : is_finite m = true -> Rabs (B2R m) <= 2 * M ->
  let v := f_div (sdErr m vec) (f_of_int (Z.of_nat (length vec))) in
  let V := rsum (map (sq (B2R m)) xs) / N in
  is_finite v = true /\ 0 <= B2R v /\ 0 <= V <= 9 * (M * M) /\ Rabs (B2R v - V) <= (2 * N + 6) * u * V + 3 * G M.
Proof using L0 N_le M_lo M_hi OK Fs Es s_lo s_hi.
  intros FM BM v V. pose proof N1 as HN1. pose proof Nu as HNu. pose proof Mp as HM. pose proof etaM as He. pose proof etaM2 as He2. pose proof (uu) as U.
  assert (HNu' : N * u <= / 1000000) by lra. pose proof Mbig as MB. pose proof Mbig1 as MB1.
  assert (MM : 0 < M * M) by (apply Rmult_lt_0_compat; lra).
  pose proof (rsum_sq_pos (B2R m) xs) as RS.
  assert (LX : (0 < length xs)%nat) by (unfold xs, reals; rewrite map_length; exact L0).
  assert (ML : Rabs (meanR xs) <= M) by (apply mean_le; [exact LX|lra|exact xs_ok]).
  assert (AB : rsum (map (sq (B2R m)) xs) <= 9 * N * (M * M)).
  { rewrite <- xs_len. apply sqm_le; [lra|exact BM|exact xs_ok]. }
  destruct (err_fold M N HM MB MB1 HN1 HNu' He He2 m vec FM BM f_zero 0 (rsum (map (sq (B2R m)) xs)) 0 OK ltac:(lra) ltac:(unfold N; lra)) as [F1 [P1 E1]].
  { reflexivity. } { cbn. lra. } { lra. } { exact AB. } { apply Rplus_0_l. } { cbn. rewrite Rminus_0_r, Rabs_R0. lra. }
  fold (sdErr m vec) in F1, P1, E1. rewrite Rplus_0_l in E1. fold N in E1.
  pose proof (G_pos M N HM MB MB1 HN1 HNu' He He2) as GP. pose proof (eta_G M N HM MB MB1 HN1 HNu' He He2) as EG.
  set (A := rsum (map (sq (B2R m)) xs)) in *. destruct n_float as [EN FN].
  assert (V0 : 0 <= V) by (apply div_pos; lra).
  assert (VB : V <= 9 * (M * M)). { apply div_le; [lra|]. lra. }
  assert (AV : A = N * V) by (unfold V; field; lra).
  assert (E2 : Rabs (B2R (sdErr m vec) / N - V) <= (2 * N + 4) * u * V + 2 * G M).
  { unfold V. replace (B2R (sdErr m vec) / N - A / N) with ((B2R (sdErr m vec) - A) * / N) by (field; lra).
    rewrite Rabs_mult, (Rabs_pos_eq (/ N)) by (apply Rlt_le, Rinv_0_lt_compat; lra). apply div_le; [lra|].
    eapply Rle_trans; [exact E1|]. fold V. rewrite AV.
    apply Req_le. ring. }
  assert (Y : (2 * N + 4) * u * V <= / 1000000 * V). { apply Rmult_le_compat_r; [lra|]. replace ((2 * N + 4) * u) with (2 * (N * u) + 4 * u) by ring. pose proof u_small. lra. }
  assert (Q0 : 0 <= B2R (sdErr m vec) / N) by (apply div_pos; [exact P1|lra]).
  assert (Q1 : B2R (sdErr m vec) / N <= V + / 1000000 * V + 2 * G M) by (apply rabs_le' in E2; lra).
  assert (GM : G M <= M * M).
  { unfold G. assert (V2 : 0 < u * u <= / 1000000) by (clear - U; nra). assert (V4 : u * u * u * u <= / 1000000) by (clear - V2; replace (u * u * u * u) with (u * u * (u * u)) by ring; nra).
    rewrite <- (Rmult_1_l (M * M)) at 2. apply Rmult_le_compat_r; lra. }
  destruct (f_div_ok' (sdErr m vec) (f_of_int (Z.of_nat (length vec))) F1) as [ED FD].
  { rewrite EN. lra. } { rewrite EN. rewrite Rabs_pos_eq by lra. assert (M * M * 20 <= M * M * (N * 20)) by (apply Rmult_le_compat_l; lra). lra. }
  rewrite EN in ED. fold v in ED, FD. split; [exact FD|]. split; [rewrite ED; apply rnd_nonneg; lra|]. split; [lra|].
  rewrite ED. pose proof (rnd_err (B2R (sdErr m vec) / N)) as RE. rewrite (Rabs_pos_eq (B2R (sdErr m vec) / N)) in RE by lra.
  replace (rnd (B2R (sdErr m vec) / N) - V) with ((rnd (B2R (sdErr m vec) / N) - B2R (sdErr m vec) / N) + (B2R (sdErr m vec) / N - V)) by ring.
  eapply Rle_trans; [apply Rabs_triang|].
  assert (u * (B2R (sdErr m vec) / N) <= u * (V + / 1000000 * V + 2 * G M)) by (apply Rmult_le_compat_l; lra).
  assert (uV : 0 <= u * V) by (apply Rmult_le_pos; lra). assert (uG : u * G M <= / 1000000 * G M) by (apply Rmult_le_compat_r; lra). lra.
Qed.

Lemma main : let r := StandardDeviation vec scale in
  is_finite r = true /\ 0 <= B2R r /\ Rabs (B2R r - s * sdR xs) <= s * M * ((4 * N + 12) * u).
Proof using L0 N_le M_lo M_hi OK Fs Es s_lo s_hi.
  unfold StandardDeviation. cbv zeta. destruct mean_ok as [FM EM]. cbv zeta in FM, EM.
  set (m := f_div (sdSum vec) (f_of_int (Z.of_nat (length vec)))) in *.
  pose proof N1 as HN1. pose proof Nu as HNu. pose proof NNu as HNNu. pose proof Mp as HM. pose proof etaM as He. pose proof etaM2 as He2. pose proof uu as U.
  assert (HNu' : N * u <= / 1000000) by lra. pose proof Mbig as MB. pose proof Mbig1 as MB1.
  pose proof (G_pos M N HM MB MB1 HN1 HNu' He He2) as GP.
  assert (LX : (0 < length xs)%nat) by (unfold xs, reals; rewrite map_length; exact L0).
  assert (ML : Rabs (meanR xs) <= M) by (apply mean_le; [exact LX|lra|exact xs_ok]).
  assert (uM0 : 0 < u * M) by (apply Rmult_lt_0_compat; lra).
  assert (d1 : (2 * N + 2) * (u * M) <= / 1000000 * M). { replace ((2 * N + 2) * (u * M)) with ((2 * (N * u) + 2 * u) * M) by ring. pose proof u_small. apply Rmult_le_compat_r; lra. }
  set (d := (2 * N + 2) * (u * M)) in *.
  assert (BM : Rabs (B2R m) <= 2 * M).
  { replace (B2R m) with ((B2R m - meanR xs) + meanR xs) by ring. eapply Rle_trans; [apply Rabs_triang|]. lra. }
  destruct (var_ok m FM BM) as [FV [PV [[V0 VB] EV]]]. cbv zeta in FV, PV, V0, VB, EV.
  set (v := f_div (sdErr m vec) (f_of_int (Z.of_nat (length vec)))) in *.
  set (V := rsum (map (sq (B2R m)) xs) / N) in *.
  pose proof (sd_le M xs LX ltac:(lra) xs_ok) as [S0 SM]. set (sg := sdR xs) in *.
  (* V = sg^2 + (m - mean)^2 *)
  assert (SS : sg * sg = rsum (map (sq (meanR xs)) xs) / N).
  { unfold sg. rewrite sd_eq, xs_len. apply sqrt_sqrt. apply div_pos; [apply rsum_sq_pos|lra]. }
  assert (VS : V = sg * sg + (B2R m - meanR xs) * (B2R m - meanR xs)).
  { unfold V. rewrite sq_shift by exact LX. rewrite xs_len, SS. field. lra. }
  set (e := B2R m - meanR xs) in *. apply rabs_le' in EM.
  assert (d0 : 0 <= d) by (unfold d; apply Rmult_le_pos; lra).
  assert (V1 : sg <= sqrt V).
  { rewrite <- (sqrt_square sg) by lra. apply sqrt_le_1_alt. rewrite VS. pose proof (Rle_0_sqr e) as X. unfold Rsqr in X. lra. }
  assert (V2 : sqrt V <= sg + d).
  { rewrite <- (sqrt_square (sg + d)) by lra. apply sqrt_le_1_alt. rewrite VS.
    assert (e * e <= d * d) by (clear - EM d0; nra). assert (0 <= sg * d) by (apply Rmult_le_pos; lra). lra. }
  (* square root of the computed variance *)
  assert (al1 : 0 <= (2 * N + 6) * u <= / 1000000). { replace ((2 * N + 6) * u) with (2 * (N * u) + 6 * u) by ring. assert (0 <= N * u) by (apply Rmult_le_pos; lra). pose proof u_small. lra. }
  assert (G3 : 3 * G M <= (2 * (u * u * M)) * (2 * (u * u * M))). { unfold G in *. lra. }
  assert (EQ : Rabs (sqrt (B2R v) - sqrt V) <= (2 * N + 6) * u * sqrt V + 2 * (u * u * M)).
  { apply sqrt_err; try lra. assert (0 <= u * u * M) by (apply Rmult_le_pos; [apply Rle_0_sqr|lra]). lra. }
  destruct (f_sqrt_ok v FV PV) as [EW FW].
  assert (uuM : 0 <= u * u * M <= / 1000000 * (u * M)). { split; [apply Rmult_le_pos; [apply Rle_0_sqr|lra]|]. rewrite Rmult_assoc. apply Rmult_le_compat_r; lra. }
  assert (X1 : (2 * N + 6) * u * sqrt V <= (2 * N + 7) * (u * M)).
  { eapply Rle_trans; [apply Rmult_le_compat_l; [lra|exact V2]|].
    assert ((2 * N + 6) * u * d <= u * M).
    { unfold d. replace ((2 * N + 6) * u * ((2 * N + 2) * (u * M))) with ((4 * (N * (N * u)) + 16 * (N * u) + 12 * u) * (u * M)) by ring.
      rewrite <- (Rmult_1_l (u * M)) at 2. apply Rmult_le_compat_r; lra. }
    assert ((2 * N + 6) * u * sg <= (2 * N + 6) * u * M) by (apply Rmult_le_compat_l; lra). lra. }
  assert (EQ2 : Rabs (sqrt (B2R v) - sg) <= (4 * N + 9) * (u * M) + / 1000 * (u * M)).
  { apply rabs_le' in EQ. apply rabs_le. unfold d in V2. lra. }
  assert (Z0 : (4 * N + 9) * (u * M) <= / 1000000 * M). { replace ((4 * N + 9) * (u * M)) with ((4 * (N * u) + 9 * u) * M) by ring. pose proof u_small. apply Rmult_le_compat_r; lra. }
  assert (uM1 : u * M <= / 1000000 * M) by (apply Rmult_le_compat_r; lra).
  pose proof (sqrt_pos (B2R v)) as Q0.
  assert (Q1 : sqrt (B2R v) <= M + / 100000 * M) by (apply rabs_le' in EQ2; lra).
  pose proof (rnd_err (sqrt (B2R v))) as RE. rewrite <- EW in RE. rewrite (Rabs_pos_eq (sqrt _)) in RE by lra.
  assert (W0 : 0 <= B2R (f_sqrt v)) by (rewrite EW; apply rnd_nonneg; lra).
  pose proof (eta_uM M N HM MB MB1 HN1 HNu' He He2) as EE.
  assert (X2 : u * sqrt (B2R v) <= u * (M + / 100000 * M)) by (apply Rmult_le_compat_l; lra).
  set (w := B2R (f_sqrt v)) in *.
  assert (EQ3 : Rabs (w - sg) <= (4 * N + 10) * (u * M) + / 100 * (u * M)).
  { apply rabs_le' in EQ2. apply rabs_le' in RE. apply rabs_le. lra. }
  assert (W1 : w <= M + / 10000 * M) by (apply rabs_le' in EQ3; lra).
  assert (s0 : 0 < s). { pose proof (bpow_gt_0 radix2 (-300)). lra. }
  assert (ws : 0 <= w * s <= 2 * (s * M)).
  { split; [apply Rmult_le_pos; lra|]. replace (2 * (s * M)) with ((2 * M) * s) by ring. apply Rmult_le_compat_r; lra. }
  pose proof sMbig as SB. assert (sM0 : 0 < s * M) by (apply Rmult_lt_0_compat; lra).
  destruct (f_mul_ok (f_sqrt v) scale FW Fs) as [EMu FMu]. { fold w. rewrite Es, Rabs_pos_eq by lra. lra. }
  fold w in EMu. rewrite Es in EMu. split; [exact FMu|]. split; [rewrite EMu; apply rnd_nonneg; lra|].
  rewrite EMu. pose proof (rnd_err (w * s)) as RM. rewrite (Rabs_pos_eq (w * s)) in RM by lra. apply rabs_le' in RM.
  assert (EQ4 : Rabs (w * s - s * sg) <= s * ((4 * N + 10) * (u * M) + / 100 * (u * M))).
  { replace (w * s - s * sg) with (s * (w - sg)) by ring. rewrite Rabs_mult, (Rabs_pos_eq s) by lra. apply Rmult_le_compat_l; lra. }
  apply rabs_le' in EQ4. pose proof etasM as ES.
  assert (usM : 0 < u * (s * M)) by (apply Rmult_lt_0_compat; lra).
  assert (X3 : u * (w * s) <= u * (s * M + / 10000 * (s * M))).
  { apply Rmult_le_compat_l; [lra|]. replace (s * M + / 10000 * (s * M)) with ((M + / 10000 * M) * s) by ring. apply Rmult_le_compat_r; lra. }
  assert (X4 : u * u * (s * M) <= / 1000000 * (u * (s * M))). { rewrite Rmult_assoc. apply Rmult_le_compat_r; lra. }
  replace (s * M * ((4 * N + 12) * u)) with (4 * (N * (u * (s * M))) + 12 * (u * (s * M))) by ring.
  replace (s * ((4 * N + 10) * (u * M) + / 100 * (u * M))) with (4 * (N * (u * (s * M))) + 10 * (u * (s * M)) + / 100 * (u * (s * M))) in EQ4 by ring.
  apply rabs_le. lra.
Qed.
End Main.

(** ** C66 *)
(** For every non-empty vector of at most 2^24 finite floats of magnitude at most M, the result is finite,
    non-negative and within s * M * (N + 3) * 2^-51 of s times the standard deviation of the exact values. *)
Theorem C66_sd : forall (vec : list f64) (scale : f64) (M : R),
  (1 <= length vec)%nat -> INR (length vec) <= IZR (2 ^ 24) ->
  Forall (fun c : f64 => is_finite c = true /\ Rabs (B2R c) <= M) vec ->
  bpow radix2 (-300) <= M <= bpow radix2 300 ->
  is_finite scale = true -> bpow radix2 (-300) <= B2R scale <= bpow radix2 300 ->
  let r := StandardDeviation vec scale in
  is_finite r = true /\ 0 <= B2R r /\
  Rabs (B2R r - B2R scale * sdR (reals vec)) <= B2R scale * M * ((INR (length vec) + 3) * bpow radix2 (-51)).
Proof.
  intros vec scale M L N OK [M1 M2] F [S1 S2] r.
  destruct (main M (B2R scale) vec scale ltac:(lia) N M1 M2 OK F eq_refl S1 S2) as [A [B C]].
  split; [exact A|]. split; [exact B|]. eapply Rle_trans; [exact C|]. apply Req_le. rewrite u_bpow.
  change (-51)%Z with (-53 + 2)%Z. rewrite bpow_plus. change (bpow radix2 2) with 4. ring.
Qed.

(** One value: the answer is exactly zero. *)
Theorem C66_single : forall (x scale : f64), is_finite x = true -> Rabs (B2R x) <= bpow radix2 300 ->
  is_finite scale = true -> B2R (StandardDeviation [x] scale) = 0.
Proof.
  intros x scale F B FS. unfold StandardDeviation, sdSum, sdErr. cbn [fold_left length].
  assert (BB : bpow radix2 300 <= big) by (change big with (bpow radix2 1000); apply bpow_le; lia).
  assert (B0 : 0 <= big) by (unfold big; apply IZR_le; lia).
  change (Z.of_nat 1) with 1%Z. fold f_one.
  destruct f_one_ok as [E1 F1].
  destruct (f_add_ok' f_zero x eq_refl F) as [EA FA]. { cbn [f_zero B2R]. rewrite Rplus_0_l. lra. }
  cbn [f_zero B2R] in EA. fold f_zero in EA. rewrite Rplus_0_l, (rnd_fmt _ (fmt_B2R x)) in EA.
  destruct (f_div_ok' (f_add f_zero x) f_one FA) as [ED FD]. { rewrite E1. lra. } { rewrite E1, EA. unfold Rdiv. rewrite Rinv_1, Rmult_1_r. lra. }
  rewrite E1, EA in ED. unfold Rdiv in ED. rewrite Rinv_1, Rmult_1_r, (rnd_fmt _ (fmt_B2R x)) in ED.
  set (m := f_div (f_add f_zero x) f_one) in *.
  assert (R0 : rnd 0 = 0) by (apply rnd_fmt, generic_format_0).
  destruct (f_sub_ok x m F FD) as [ES FSb]. { rewrite ED, Rminus_diag_eq, Rabs_R0 by reflexivity. exact B0. }
  rewrite ED, Rminus_diag_eq, R0 in ES by reflexivity.
  destruct (f_mul_ok (f_sub x m) (f_sub x m) FSb FSb) as [EM FM]. { rewrite ES, Rmult_0_l, Rabs_R0. exact B0. }
  rewrite ES, Rmult_0_l, R0 in EM.
  destruct (f_add_ok' f_zero (f_mul (f_sub x m) (f_sub x m)) eq_refl FM) as [EE FE]. { rewrite EM. cbn [f_zero B2R]. rewrite Rplus_0_l, Rabs_R0. exact B0. }
  rewrite EM in EE. cbn [f_zero B2R] in EE. fold f_zero in EE. rewrite Rplus_0_l, R0 in EE.
  set (er := f_add f_zero (f_mul (f_sub x m) (f_sub x m))) in *.
  destruct (f_div_ok' er f_one FE) as [EV FV]. { rewrite E1. lra. } { rewrite E1, EE. unfold Rdiv. rewrite Rmult_0_l, Rabs_R0. exact B0. }
  rewrite EE in EV. unfold Rdiv in EV. rewrite Rmult_0_l, R0 in EV.
  destruct (f_sqrt_ok (f_div er f_one) FV) as [EQ FQ]. { lra. }
  rewrite EV, sqrt_0, R0 in EQ.
  destruct (f_mul_ok (f_sqrt (f_div er f_one)) scale FQ FS) as [ER FR]. { rewrite EQ, Rmult_0_l, Rabs_R0. exact B0. }
  rewrite ER, EQ, Rmult_0_l. exact R0.
Qed.

(** Expectations that fail: an empty vector gives NaN, three copies of 0.1 do not give zero, and the result
    overflows although the standard deviation itself is a float64. *)
Theorem C66_empty : forall scale, is_nan (StandardDeviation [] scale) = true.
Proof. intros scale. unfold StandardDeviation. cbn [length sdSum sdErr fold_left]. 
  assert (E : f_sqrt (f_div (sdErr (f_div (sdSum []) (f_of_int 0)) []) (f_of_int 0)) = B754_nan) by (apply B2SF_inj; vm_compute; reflexivity).
  change (Z.of_nat 0) with 0%Z. unfold sdErr, sdSum in E. cbn [fold_left] in E. rewrite E. reflexivity.
Qed.
Definition tenth : f64 := f_div (f_of_int 1) (f_of_int 10).
Theorem C66_constant : 0 < B2R (StandardDeviation [tenth; tenth; tenth] f_one) /\ sdR (reals [tenth; tenth; tenth]) = 0.
Proof.
  split.
  - assert (E : exists m e, B2SF (StandardDeviation [tenth; tenth; tenth] f_one) = SpecFloat.S754_finite false m e) by (eexists; eexists; vm_compute; reflexivity).
    destruct E as [m [e E]]. rewrite <- SF2R_B2SF, E. cbn. apply F2R_gt_0. reflexivity.
  - unfold sdR, meanR, reals. cbn [map fold_right length]. set (t := B2R tenth).
    replace (INR 3) with 3 by (cbn; ring). replace ((t + (t + (t + 0))) / 3) with t by field.
    replace (((t - t) * (t - t) + ((t - t) * (t - t) + ((t - t) * (t - t) + 0))) / 3) with 0 by field. apply sqrt_0.
Qed.
Definition huge : f64 := f_of_int (2 ^ 600).
Theorem C66_overflow : is_finite (StandardDeviation [huge; f_neg huge] f_one) = false /\ sdR (reals [huge; f_neg huge]) = IZR (2 ^ 600).
Proof.
  split.
  - rewrite <- is_finite_SF_B2SF. vm_compute. reflexivity.
  - assert (H : B2R huge = IZR (2 ^ 600)).
    { assert (E : B2SF huge = SpecFloat.S754_finite false 4503599627370496 548) by (vm_compute; reflexivity).
      rewrite <- SF2R_B2SF, E. cbn [SF2R cond_Zopp]. unfold F2R. cbn [Fnum Fexp]. change (bpow radix2 548) with (IZR (Zpower 2 548)).
      rewrite <- mult_IZR. f_equal. }
    unfold sdR, meanR, reals. cbn [map fold_right length]. rewrite (proj1 (f_neg_ok huge)), H. set (t := IZR (2 ^ 600)).
    replace (INR 2) with 2 by (cbn; ring). replace ((t + (- t + 0)) / 2) with 0 by field.
    replace (((t - 0) * (t - 0) + ((- t - 0) * (- t - 0) + 0)) / 2) with (t * t) by field. apply sqrt_square. unfold t. apply IZR_le. lia.
Qed.

(** scaleDown: the integer divided by the scale, with a relative error of at most 2^-51. *)
Theorem C66_scaleDown : forall (z : Z) (n : f64), is_finite n = true ->
  bpow radix2 (-500) <= Rabs (B2R n) <= bpow radix2 500 -> Rabs (IZR z) <= bpow radix2 400 ->
  is_finite (scaleDown z n) = true /\
  Rabs (B2R (scaleDown z n) - IZR z / B2R n) <= bpow radix2 (-51) * Rabs (IZR z / B2R n).
Proof.
  intros z n F [N1 N2] Z1. unfold scaleDown.
  assert (BG : bpow radix2 400 <= big) by (change big with (bpow radix2 1000); apply bpow_le; lia).
  destruct (f_of_int_ok' z ltac:(lra)) as [E1 F1]. set (c := B2R (f_of_int z)) in *.
  pose proof u_small as U. pose proof eta_pos as EP.
  assert (NN : B2R n <> 0). { intros H. rewrite H, Rabs_R0 in N1. pose proof (bpow_gt_0 radix2 (-500)). lra. }
  assert (NP : 0 < Rabs (B2R n)) by (apply Rabs_pos_lt; exact NN).
  assert (IN : / Rabs (B2R n) <= bpow radix2 500).
  { replace (bpow radix2 500) with (/ bpow radix2 (-500)) by (rewrite <- bpow_opp; reflexivity). apply Rinv_le; [apply bpow_gt_0|exact N1]. }
  assert (INV : bpow radix2 (-500) <= / Rabs (B2R n)).
  { replace (bpow radix2 (-500)) with (/ bpow radix2 500) by (rewrite <- bpow_opp; reflexivity). apply Rinv_le; [exact NP|exact N2]. }
  destruct (Z.eq_dec z 0) as [->|NZ].
  - assert (R0 : rnd 0 = 0) by (apply rnd_fmt, generic_format_0). rewrite R0 in E1.
    destruct (f_div_ok' (f_of_int 0) n F1 NN) as [ED FD]. { fold c. rewrite E1. unfold Rdiv. rewrite Rmult_0_l, Rabs_R0. unfold big. apply IZR_le. lia. }
    fold c in ED. rewrite E1 in ED. unfold Rdiv in *. rewrite Rmult_0_l, R0 in ED. split; [exact FD|]. rewrite ED, Rmult_0_l, Rminus_0_r, Rabs_R0, Rmult_0_r. lra.
  - assert (Z2 : 1 <= Rabs (IZR z)) by (rewrite <- abs_IZR; apply IZR_le; lia).
    (* c = z (1 + d1) *)
    pose proof (rnd_err (IZR z)) as R1. rewrite <- E1 in R1.
    assert (EU : eta <= u * / 1000000) by (pose proof eta_small; lra).
    assert (D1 : Rabs (c - IZR z) <= (u + u * / 1000000) * Rabs (IZR z)).
    { assert (u * / 1000000 * 1 <= u * / 1000000 * Rabs (IZR z)) by (apply Rmult_le_compat_l; lra). lra. }
    assert (D2 : Rabs c <= 2 * Rabs (IZR z)).
    { replace c with ((c - IZR z) + IZR z) by ring. eapply Rle_trans; [apply Rabs_triang|].
      assert ((u + u * / 1000000) * Rabs (IZR z) <= 1 * Rabs (IZR z)) by (apply Rmult_le_compat_r; lra). lra. }
    assert (Q : forall y, Rabs (y / B2R n) = Rabs y * / Rabs (B2R n)) by (intros y; unfold Rdiv; rewrite Rabs_mult, Rabs_inv; reflexivity).
    assert (IP : 0 < / Rabs (B2R n)) by (apply Rinv_0_lt_compat; exact NP).
    assert (D3 : Rabs (c / B2R n) <= big).
    { rewrite Q. eapply Rle_trans; [apply Rmult_le_compat; [apply Rabs_pos|lra|exact D2|exact IN]|].
      assert (2 * Rabs (IZR z) * bpow radix2 500 <= bpow radix2 1 * bpow radix2 400 * bpow radix2 500).
      { apply Rmult_le_compat_r; [apply bpow_ge_0|]. change (bpow radix2 1) with 2. lra. }
      rewrite <- !bpow_plus in H. eapply Rle_trans; [exact H|]. change big with (bpow radix2 1000). apply bpow_le. lia. }
    destruct (f_div_ok' (f_of_int z) n F1 NN D3) as [ED FD]. fold c in ED. split; [exact FD|]. rewrite ED.
    pose proof (rnd_err (c / B2R n)) as R2.
    set (t := Rabs (IZR z / B2R n)). assert (T : t = Rabs (IZR z) * / Rabs (B2R n)) by apply Q.
    assert (D4 : Rabs (c / B2R n - IZR z / B2R n) <= (u + u * / 1000000) * t).
    { replace (c / B2R n - IZR z / B2R n) with ((c - IZR z) / B2R n) by (field; exact NN). rewrite Q, T, <- Rmult_assoc. apply Rmult_le_compat_r; lra. }
    assert (T0 : bpow radix2 (-500) <= t). { rewrite T. assert (1 * / Rabs (B2R n) <= Rabs (IZR z) * / Rabs (B2R n)) by (apply Rmult_le_compat_r; lra). lra. }
    assert (D5 : Rabs (c / B2R n) <= 2 * t). { rewrite Q, T, <- Rmult_assoc. apply Rmult_le_compat_r; lra. }
    assert (ET : eta <= u * / 1000000 * t).
    { assert (X : u * / 1000000 * bpow radix2 (-500) <= u * / 1000000 * t) by (apply Rmult_le_compat_l; lra).
      assert (Y : bpow radix2 (-30) <= / 1000000). { change (-30)%Z with (- (30))%Z. rewrite bpow_opp. change (bpow radix2 30) with 1073741824. lra. }
      assert (W : bpow radix2 (-53) * bpow radix2 (-30) * bpow radix2 (-500) <= u * / 1000000 * bpow radix2 (-500)).
      { apply Rmult_le_compat_r; [apply bpow_ge_0|]. rewrite u_bpow. apply Rmult_le_compat_l; [apply bpow_ge_0|exact Y]. }
      rewrite <- !bpow_plus in W. assert (eta <= bpow radix2 (-53 + -30 + -500)) by (unfold eta; apply bpow_le; lia). lra. }
    replace (rnd (c / B2R n) - IZR z / B2R n) with ((rnd (c / B2R n) - c / B2R n) + (c / B2R n - IZR z / B2R n)) by ring.
    eapply Rle_trans; [apply Rabs_triang|].
    assert (X : u * Rabs (c / B2R n) <= u * (2 * t)) by (apply Rmult_le_compat_l; lra).
    assert (t0 : 0 < t) by (pose proof (bpow_gt_0 radix2 (-500)); lra).
    assert (ut : 0 < u * t) by (apply Rmult_lt_0_compat; lra).
    replace (bpow radix2 (-51)) with (4 * u) by (rewrite u_bpow; change (-51)%Z with (-53 + 2)%Z; rewrite bpow_plus; change (bpow radix2 2) with 4; ring).
    lra.
Qed.

(** the hypotheses of C66_sd are met by a concrete vector: [1; 2; 4] with scale 3 and M = 4 *)
Example C66_ex : let r := StandardDeviation [f_of_int 1; f_of_int 2; f_of_int 4] (f_of_int 3) in
  is_finite r = true /\ 0 <= B2R r /\ Rabs (B2R r - 3 * sdR [1; 2; 4]) <= 3 * 4 * (6 * bpow radix2 (-51)).
Proof.
  assert (I : forall z, (Z.abs z < 2 ^ 53)%Z -> B2R (f_of_int z) = IZR z /\ is_finite (f_of_int z) = true).
  { intros z H. destruct (f_of_int_ok z) as [E F]. { change (2 ^ 70)%Z with (2 ^ 53 * 2 ^ 17)%Z. lia. } split; [|exact F]. rewrite E. apply rnd_fmt, fmt_int. exact H. }
  destruct (I 1%Z eq_refl) as [A1 B1], (I 2%Z eq_refl) as [A2 B2], (I 3%Z eq_refl) as [A3 B3], (I 4%Z eq_refl) as [A4 B4].
  assert (L0 : bpow radix2 (-300) <= bpow radix2 0) by (apply bpow_le; lia). change (bpow radix2 0) with 1 in L0.
  assert (L1 : bpow radix2 2 <= bpow radix2 300) by (apply bpow_le; lia). change (bpow radix2 2) with 4 in L1.
  pose proof (C66_sd [f_of_int 1; f_of_int 2; f_of_int 4] (f_of_int 3) 4) as X. cbv zeta in X. unfold reals in X. cbn [length map] in X.
  rewrite A1, A2, A3, A4 in X. replace (INR 3) with 3 in X by (cbn; ring). replace (3 + 3) with 6 in X by ring.
  apply X; [lia|change (2 ^ 24)%Z with 16777216%Z; lra| |lra|exact B3|lra].
  repeat constructor; try assumption; rewrite ?A1, ?A2, ?A4; rewrite Rabs_pos_eq by lra; lra.
Qed.
