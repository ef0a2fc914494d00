(** C48: the scale that mkckks stores (a float64) follows the exact scale: after a product and nb divisions it differs from (product of the scales) / (product of the dropped moduli)
    by a factor within (1 + 2^-50)^(nb+1) of one. *)
From Flocq Require Import Core BinarySingleNaN.
From Coq Require Import Reals Lra.
From Verif Require Import Base NumTheory Negacyclic Ntt Word BasisExt BasisExtProofs Rows RlweModel SchemeSpec ExtProd ExtProps KeyGenModel Galois KeyGenProofs CtModel CtSpec CtProofs FloatModel CkksFloat CkksModel FloatProofs CkksFloatProofs CkksRescale PropsRescale CkksCircuit.
Open Scope R_scope.

Definition tol : Rdefinitions.R := / IZR (2 ^ 50).
Lemma tol_u : tol = 8 * u. Proof. unfold tol. rewrite u_val. change (2 ^ 53)%Z with (8 * 2 ^ 50)%Z. rewrite mult_IZR. field. apply not_0_IZR. discriminate. Qed.
Lemma rnd_rel x : / 2 <= x -> Rabs (rnd x - x) <= 2 * u * x.
Proof. intros H. pose proof (rnd_err x) as E. rewrite (Rabs_right x) in E by lra. pose proof eta_small. pose proof u_small. nra. Qed.
Lemma rnd_ge1 x : 1 <= rnd x -> / 2 <= x.
Proof.
  intros H. destruct (Rle_lt_dec (/ 2) x); [assumption|]. exfalso. assert (X : rnd x <= rnd (/ 2)) by (apply rnd_le; lra).
  replace (rnd (/ 2)) with (/ 2) in X; [lra|]. destruct f_half_ok as [E _]. rewrite <- E. symmetry. apply rnd_fmt. apply fmt_B2R.
Qed.
Lemma rel_bounds x y : 0 < y -> Rabs (x - y) <= 2 * u * y -> (1 - 2 * u) * y <= x <= (1 + 2 * u) * y.
Proof. intros P H. apply Rabs_le_inv in H. lra. Qed.
(** a pair of relative errors *)
Lemma ratio_step a b : 1 - 2 * u <= a <= 1 + 2 * u -> 1 - 2 * u <= b <= 1 + 2 * u -> 1 - tol <= a / b <= 1 + tol.
Proof.
  intros A B. pose proof u_small. rewrite tol_u. assert (0 < b) by lra. split.
  - apply Rmult_le_reg_r with b; [lra|]. unfold Rdiv. rewrite Rmult_assoc, Rinv_l by lra. nra.
  - apply Rmult_le_reg_r with b; [lra|]. unfold Rdiv. rewrite Rmult_assoc, Rinv_l by lra. nra.
Qed.
Lemma tol_small : 0 < tol <= / 4. Proof. rewrite tol_u. pose proof u_small. lra. Qed.
Lemma pow_lo n : 1 - INR n * tol <= (1 - tol) ^ n.
Proof.
  pose proof tol_small. induction n as [|n IH]; [cbn; lra|]. rewrite S_INR. cbn [pow]. assert (0 <= (1 - tol) ^ n <= 1) by (split; [apply pow_le; lra|apply Rle_trans with (1 ^ n); [apply pow_incr; split; lra|rewrite pow1; lra]]).
  set (p := (1 - tol) ^ n) in *. assert (tol * p <= tol * 1) by (apply Rmult_le_compat_l; lra). lra.
Qed.
Lemma pow_hi n : 1 + INR n * tol <= (1 + tol) ^ n.
Proof. pose proof tol_small. induction n as [|n IH]; [cbn; lra|]. rewrite S_INR. cbn [pow]. pose proof (pos_INR n). set (p := (1 + tol) ^ n) in *. assert (tol * 1 <= tol * p) by (apply Rmult_le_compat_l; [lra|]; assert (0 <= INR n * tol) by (apply Rmult_le_pos; lra); lra). lra. Qed.
Lemma pow_abs n x : (1 - tol) ^ n <= x <= (1 + tol) ^ n -> Rabs (x - 1) <= (1 + tol) ^ n - 1.
Proof. intros H. apply Rabs_le. pose proof (pow_lo n). pose proof (pow_hi n). lra. Qed.

Lemma prodl_snoc l x : (prodl (l ++ [x]) = prodl l * x)%Z.
Proof. induction l as [|y l IH]; cbn [prodl app fold_right] in *; [ring|]. change (prodl (y :: (l ++ [x])) = prodl (y :: l) * x)%Z. change (y * prodl (l ++ [x]) = y * prodl l * x)%Z. rewrite IH. ring. Qed.
Lemma dropped_snoc pp i level : prodl (dropped pp (S i) level) = (prodl (dropped pp i level) * mq (Qi pp (level - i)))%Z.
Proof. unfold dropped. rewrite seq_S, map_app. cbn [map]. apply prodl_snoc. Qed.

Theorem C48_scale_drift : forall N pp level (a b half : f64) nb, wfp N pp -> (level < length (Qm pp))%nat -> is_finite a = true -> is_finite b = true -> is_finite half = true ->
  1 <= B2R a -> 1 <= B2R b -> 1 <= B2R half -> B2R a * B2R b <= IZR (2 ^ 900) -> divisions pp level (f_mul a b) half nb ->
  fpos (f_mul a b) /\ fpos (rscale pp level (f_mul a b) nb) /\
  Rabs (B2R a * B2R b / (IZR (prodl (dropped pp nb level)) * B2R (rscale pp level (f_mul a b) nb)) - 1) <= (1 + / IZR (2 ^ 50)) ^ (S nb) - 1.
Proof.
  intros N pp level a b half nb WF HL Fa Fb Fh A1 B1 H1 HB (NL & DV & _). fold tol. pose proof u_small as US. pose proof tol_small as TS.
  assert (BIG : IZR (2 ^ 900) * 4 <= big) by (unfold big; rewrite <- (mult_IZR _ 4); apply IZR_le; vm_compute; discriminate).
  assert (P1 : 1 <= B2R a * B2R b) by nra.
  destruct (f_mul_ok a b Fa Fb) as [M1 M2]; [rewrite Rabs_right by lra; lra|].
  set (x := B2R a * B2R b) in *. set (sc := f_mul a b) in *.
  assert (MB := rel_bounds (rnd x) x ltac:(lra) (rnd_rel x ltac:(lra))). rewrite <- M1 in MB.
  assert (G : forall i, (i <= nb)%nat -> is_finite (rscale pp level sc i) = true /\ / 2 <= B2R (rscale pp level sc i) <= 2 * IZR (2 ^ 900) /\
     (1 - tol) ^ (S i) <= x / (IZR (prodl (dropped pp i level)) * B2R (rscale pp level sc i)) <= (1 + tol) ^ (S i)).
  { induction i as [|i IH]; intros Hi.
    - cbn [rscale]. split; [exact M2|]. split; [nra|]. unfold dropped. cbn [seq map prodl fold_right]. change (prodl []) with 1%Z. rewrite Rmult_1_l, !pow_1.
      replace (x / B2R sc) with (1 / (B2R sc / x)) by (field; nra).
      assert (Q : 1 - 2 * u <= B2R sc / x <= 1 + 2 * u).
      { split; apply Rmult_le_reg_r with x; try lra; unfold Rdiv; rewrite Rmult_assoc, Rinv_l, Rmult_1_r by lra; lra. }
      apply ratio_step; lra.
    - destruct (IH ltac:(lia)) as (F & [L U] & T1 & T2). clear IH. cbn [rscale]. set (si := rscale pp level sc i) in *. set (q := mq (Qi pp (level - i))) in *.
      destruct (okQ pp WF (level - i) ltac:(lia)) as [_ [_ QB]]. fold q in QB.
      assert (QR : 2 <= IZR q) by (apply IZR_le; lia).
      destruct (f_of_int_ok q) as [Q1 Q2]; [unfold W in QB; lia|]. set (fq := f_of_int q) in *.
      assert (QL : (1 - 2 * u) * IZR q <= B2R fq <= (1 + 2 * u) * IZR q) by (rewrite Q1; apply rel_bounds; [lra|apply rnd_rel; lra]).
      assert (FQ : 1 <= B2R fq) by nra.
      assert (QI : 0 < / B2R fq <= 1) by (split; [apply Rinv_0_lt_compat; lra|rewrite <- Rinv_1; apply Rinv_le_contravar; lra]).
      assert (DB : 0 <= B2R si / B2R fq <= 2 * IZR (2 ^ 900)) by (unfold Rdiv; nra).
      destruct (f_div_ok' si fq F) as [V1 V2]; [lra|rewrite Rabs_right by lra; lra|].
      assert (GE : 1 <= B2R (f_div si fq)).
      { specialize (DV i ltac:(lia)). unfold f_ge in DV. cbn [rscale] in DV. change (f_le half (f_div si fq) = true) in DV. apply (f_le_ok half (f_div si fq) Fh V2) in DV. lra. }
      rewrite V1 in GE. pose proof (rnd_ge1 _ GE) as PH. assert (VP : 0 < B2R si / B2R fq) by lra. assert (VL := rel_bounds _ _ VP (rnd_rel _ PH)). rewrite <- V1 in VL, GE. set (sn := f_div si fq) in *.
      split; [exact V2|]. split. { split; [lra|]. rewrite V1. assert (X : rnd (B2R si / B2R fq) <= rnd (B2R si)) by (apply rnd_le; unfold Rdiv; nra). rewrite (rnd_fmt (B2R si)) in X by apply fmt_B2R. lra. }
      rewrite dropped_snoc. fold q. rewrite mult_IZR. set (D := IZR (prodl (dropped pp i level))) in *.
      assert (DP : 0 < D) by (unfold D; apply IZR_lt; pose proof (dropped_pos pp WF i level HL); lia).
      assert (R2 : 1 - tol <= (B2R fq / IZR q) / (B2R sn / (B2R si / B2R fq)) <= 1 + tol).
      { apply ratio_step.
        - split; apply Rmult_le_reg_r with (IZR q); try lra; unfold Rdiv; rewrite Rmult_assoc, Rinv_l, Rmult_1_r by lra; lra.
        - set (dd := B2R si / B2R fq) in *. clearbody dd. split; apply Rmult_le_reg_r with dd; try lra; unfold Rdiv; rewrite Rmult_assoc, Rinv_l, Rmult_1_r by lra; lra. }
      replace (x / (D * IZR q * B2R sn)) with ((x / (D * B2R si)) * ((B2R fq / IZR q) / (B2R sn / (B2R si / B2R fq)))) by (field; repeat split; lra).
      rewrite <- !(tech_pow_Rmult _ (S i)). assert (0 < (1 - tol) ^ S i) by (apply pow_lt; lra). assert (0 < (1 + tol) ^ S i) by (apply pow_lt; lra).
      set (y := x / (D * B2R si)) in *. set (zz := B2R fq / IZR q / (B2R sn / (B2R si / B2R fq))) in *. split.
      + rewrite Rmult_comm. apply Rmult_le_compat; lra.
      + rewrite (Rmult_comm (1 + tol)). apply Rmult_le_compat; lra. }
  destruct (G nb (le_n nb)) as (F & [L U] & T). split; [split; [exact M2|nra]|]. split; [split; [exact F|lra]|]. apply pow_abs. exact T.
Qed.
Print Assumptions C48_scale_drift.
