(** Rounding errors of StandardDeviation and scaleDown. *)
From Verif Require Import Base FloatModel FloatProofs CkksFloat CkksFloatProofs StdDev.
From Flocq Require Import Core BinarySingleNaN Relative.
From Coq Require Import Reals Lra Psatz.
Open Scope R_scope.

Local Notation fexp64 := (SpecFloat.fexp 53 1024).

Definition rsum (l : list R) : R := fold_right Rplus 0 l.

Lemma rabs_le' x y : Rabs x <= y -> - y <= x <= y.
Proof. intros H. pose proof (Rle_abs x). pose proof (Rle_abs (-x)). rewrite Rabs_Ropp in H1. lra. Qed.
Lemma rabs_le x y : - y <= x <= y -> Rabs x <= y.
Proof. intros. apply Rabs_le. assumption. Qed.

Lemma f_sqrt_ok x : is_finite x = true -> 0 <= B2R x ->
  B2R (f_sqrt x) = rnd (sqrt (B2R x)) /\ is_finite (f_sqrt x) = true.
Proof.
  intros F P. unfold f_sqrt. pose proof (Bsqrt_correct 53 1024 eq_refl eq_refl mode_NE x) as [C1 [C2 _]].
  split; [exact C1|]. rewrite C2. destruct x as [s|s| |[|] m e B]; try reflexivity; try discriminate.
  exfalso. cbn in P. assert (F2R (Float radix2 (Zneg m) e) < 0) by (apply F2R_lt_0; reflexivity). 
  unfold F2R in *; cbn in *. lra.
Qed.
Lemma f_of_int_ok' z : Rabs (IZR z) <= big -> B2R (f_of_int z) = rnd (IZR z) /\ is_finite (f_of_int z) = true.
Proof.
  intros H. unfold f_of_int.
  pose proof (binary_normalize_correct 53 1024 eq_refl eq_refl mode_NE z 0 false) as C. cbv zeta in C.
  assert (E : F2R (Float radix2 z 0) = IZR z) by (unfold F2R; cbn; ring).
  rewrite E in C. change (round radix2 fexp64 (round_mode mode_NE) (IZR z)) with (rnd (IZR z)) in C.
  rewrite no_overflow' in C by exact H. tauto.
Qed.

Section Err.
Variables (M N : R).
Hypothesis M_pos : 0 < M.
Hypothesis M_big : M * M * (N * 20) <= big.
Hypothesis M_big1 : M * (N * 20) <= big.
Hypothesis N_1 : 1 <= N.
Hypothesis N_u : N * u <= / 1000000.
Hypothesis eta_M : eta <= u * u * u * u * u * M.
Hypothesis eta_M2 : eta <= u * u * u * u * u * (M * M).

Lemma uu : 0 < u <= / 1000000.
Proof using. pose proof u_small. lra. Qed.
Lemma uM : 0 < u * M. Proof using M M_pos N N_1 N_u eta_M eta_M2 M_big M_big1. pose proof uu. nra. Qed.
Lemma u2 : 0 < u * u <= u * / 1000000. Proof using M M_pos N N_1 N_u eta_M eta_M2 M_big M_big1. pose proof uu. nra. Qed.

Lemma eta_uM : eta <= u * M * / 1000000.
Proof using M M_pos N N_1 N_u eta_M eta_M2 M_big M_big1.
  pose proof uu. pose proof uM. assert (u * u * u * u <= / 1000000) by (assert (u*u <= /1000000) by nra; assert (0 < u * u) by nra; nra). nra.
Qed.

(** ** the sum *)
Lemma sum_step a A x k : 0 <= k -> k + 1 <= N -> Rabs (a - A) <= k * (2 * u * N * M) -> Rabs A <= k * M -> Rabs x <= M ->
  Rabs (a + x) <= N * M + N * M * / 100000 /\ Rabs (rnd (a + x) - (A + x)) <= (k + 1) * (2 * u * N * M) /\ Rabs (A + x) <= (k + 1) * M.
Proof using M M_pos N N_1 N_u eta_M eta_M2 M_big M_big1.
  intros K K1 H1 H2 H3. pose proof uu as U. pose proof uM as UM. pose proof eta_uM as E.
  assert (B0 : k * (2 * u * N * M) <= N * M * / 100000).
  { assert (0 < u * N) by nra. assert (2 * u * N * k <= N * / 100000) by nra.
    replace (k * (2 * u * N * M)) with (2 * u * N * k * M) by ring. nra. }
  assert (B3 : Rabs (A + x) <= (k + 1) * M).
  { eapply Rle_trans; [apply Rabs_triang|]. lra. }
  assert (B1 : Rabs (a + x) <= N * M + N * M * / 100000).
  { replace (a + x) with ((a - A) + (A + x)) by ring. eapply Rle_trans; [apply Rabs_triang|]. nra. }
  split; [exact B1|]. split; [|exact B3].
  replace (rnd (a + x) - (A + x)) with ((rnd (a + x) - (a + x)) + (a - A)) by ring.
  eapply Rle_trans; [apply Rabs_triang|]. pose proof (rnd_err (a + x)) as RE.
  assert (u * Rabs (a + x) + eta <= 2 * u * N * M).
  { assert (u * Rabs (a + x) <= u * (N * M + N * M * / 100000)) by nra. assert (u * M <= u * M * N) by nra. nra. }
  lra.
Qed.

Definition okx (c : f64) : Prop := is_finite c = true /\ Rabs (B2R c) <= M.

Lemma sum_fold l : forall acc A k, Forall okx l -> 0 <= k -> k + INR (length l) <= N -> is_finite acc = true ->
  Rabs (B2R acc - A) <= k * (2 * u * N * M) -> Rabs A <= k * M ->
  let r := fold_left (fun mean c => f_add mean c) l acc in
  is_finite r = true /\ Rabs (B2R r - (A + rsum (map (@B2R 53 1024) l))) <= (k + INR (length l)) * (2 * u * N * M).
Proof using M M_pos N N_1 N_u eta_M eta_M2 M_big M_big1.
  induction l as [|c l IH]; intros acc A k OK K KN FA H1 H2.
  - cbn [fold_left rsum map fold_right length INR]. split; [assumption|]. rewrite !Rplus_0_r. assumption.
  - apply Forall_cons_iff in OK. destruct OK as [[FC BC] OK].
    replace (INR (length (c :: l))) with (INR (length l) + 1) in * by (cbn [length]; rewrite S_INR; reflexivity).
    pose proof (pos_INR (length l)).
    destruct (sum_step (B2R acc) A (B2R c) k K ltac:(lra) H1 H2 BC) as [S1 [S2 S3]].
    destruct (f_add_ok' acc c FA FC) as [EA FA2].
    { eapply Rle_trans; [exact S1|]. assert (0 < M * N) by nra. lra. }
    cbn [fold_left].
    destruct (IH (f_add acc c) (A + B2R c) (k + 1) OK ltac:(lra) ltac:(lra) FA2) as [R1 R2].
    { rewrite EA. exact S2. }
    { exact S3. }
    split; [exact R1|]. cbn [map rsum fold_right]. fold (rsum (map (@B2R 53 1024) l)).
    replace (k + (INR (length l) + 1)) with (k + 1 + INR (length l)) by ring.
    replace (A + (B2R c + rsum (map (@B2R 53 1024) l))) with (A + B2R c + rsum (map (@B2R 53 1024) l)) by ring. exact R2.
Qed.

(** ** one square *)
Definition G : R := u * u * u * u * (M * M).
Lemma G_pos : 0 < G. Proof using M M_pos N N_1 N_u eta_M eta_M2 M_big M_big1. unfold G. pose proof (proj1 uu) as U. pose proof (Rmult_lt_0_compat _ _ U U) as U2. pose proof (Rmult_lt_0_compat _ _ U2 U) as U3. pose proof (Rmult_lt_0_compat _ _ U3 U) as U4. apply Rmult_lt_0_compat; [exact U4|]. apply Rmult_lt_0_compat; assumption. Qed.
Lemma eta_G : eta <= u * G. Proof using M M_pos N N_1 N_u eta_M eta_M2 M_big M_big1. unfold G. nra. Qed.

Lemma sq_step a : Rabs a <= 3 * M -> let t := rnd a in let p := rnd (t * t) in
  Rabs t <= 4 * M /\ 0 <= p /\ Rabs (p - a * a) <= 4 * u * (a * a) + G.
Proof using M M_pos N N_1 N_u eta_M eta_M2 M_big M_big1.
  intros H t p. pose proof uu as U. pose proof uM as UM. pose proof eta_uM as E. pose proof eta_pos as EP. pose proof eta_G as EG. pose proof G_pos as GP. pose proof u2 as UU.
  pose proof (rnd_err a) as R1. fold t in R1. pose proof (rnd_err (t * t)) as R2. fold p in R2.
  set (b := Rabs a) in *. assert (B0 : 0 <= b) by apply Rabs_pos.
  assert (BB : a * a = b * b) by (unfold b; rewrite <- Rabs_mult; symmetry; apply Rabs_pos_eq; nra).
  assert (T1 : Rabs t <= b + u * b + eta).
  { replace t with ((t - a) + a) by ring. eapply Rle_trans; [apply Rabs_triang|]. fold b. lra. }
  assert (T2 : Rabs (t + a) <= 2 * b + u * b + eta).
  { eapply Rle_trans; [apply Rabs_triang|]. fold b. lra. }
  split; [nra|]. split; [apply rnd_nonneg; nra|].
  assert (ME : M * eta <= u * G).
  { unfold G. nra. }
  assert (D : Rabs (t * t - a * a) <= (2 * u + u * u) * (b * b) + 11 * (u * G)).
  { replace (t * t - a * a) with ((t - a) * (t + a)) by ring. rewrite Rabs_mult.
    eapply Rle_trans; [apply Rmult_le_compat; [apply Rabs_pos|apply Rabs_pos|exact R1|exact T2]|].
    replace ((u * b + eta) * (2 * b + u * b + eta)) with ((2 * u + u * u) * (b * b) + (2 * u * b * eta + 2 * b * eta + eta * eta)) by ring.
    assert (b * eta <= 3 * (u * G)) by nra. assert (eta * eta <= M * eta) by (assert (eta <= M) by nra; nra).
    assert (u * (b * eta) <= / 1000000 * (b * eta)) by (assert (0 <= b * eta) by nra; nra). nra. }
  assert (TT : Rabs (t * t) <= b * b + (2 * u + u * u) * (b * b) + 11 * (u * G)).
  { replace (t * t) with ((t * t - a * a) + a * a) by ring. eapply Rle_trans; [apply Rabs_triang|]. rewrite (Rabs_pos_eq (a * a)) by nra. rewrite BB at 2. lra. }
  replace (p - a * a) with ((p - t * t) + (t * t - a * a)) by ring.
  eapply Rle_trans; [apply Rabs_triang|]. rewrite BB.
  assert (Q0 : 0 <= b * b) by nra.
  assert (Y : u * Rabs (t * t) <= u * (b * b + (2 * u + u * u) * (b * b) + 11 * (u * G))) by (apply Rmult_le_compat_l; lra).
  replace (u * (b * b + (2 * u + u * u) * (b * b) + 11 * (u * G))) with (u * (b * b) + 2 * (u * u * (b * b)) + u * (u * u * (b * b)) + 11 * (u * (u * G))) in Y by ring.
  replace ((2 * u + u * u) * (b * b)) with (2 * (u * (b * b)) + u * u * (b * b)) in D by ring.
  assert (Q1 : 0 <= u * (b * b)) by (apply Rmult_le_pos; lra).
  assert (Q2 : 0 <= u * u * (b * b) <= / 1000000 * (u * (b * b))).
  { split; [apply Rmult_le_pos; lra|]. replace (u * u * (b * b)) with (u * (u * (b * b))) by ring. apply Rmult_le_compat_r; lra. }
  assert (Q3 : u * (u * u * (b * b)) <= / 1000000 * (u * u * (b * b))) by (apply Rmult_le_compat_r; lra).
  assert (Q4 : 0 < u * G <= / 1000000 * G) by (split; [apply Rmult_lt_0_compat; lra|apply Rmult_le_compat_r; lra]).
  assert (Q5 : u * (u * G) <= / 1000000 * (u * G)) by (apply Rmult_le_compat_r; lra).
  rewrite BB in D. lra.
Qed.

(** ** the sum of squares *)
Definition sq (m x : R) : R := (x - m) * (x - m).
Lemma rsum_sq_pos m l : 0 <= rsum (map (sq m) l).
Proof using.
  induction l as [|x l IH]; [apply Rle_refl|]. cbn [map rsum fold_right]. fold (rsum (map (sq m) l)).
  assert (0 <= sq m x) by (unfold sq; apply Rle_0_sqr). lra.
Qed.

Lemma err_step E P A a p k : 0 <= k -> k + 1 <= N -> 0 <= E -> 0 <= P -> 0 <= p -> 0 <= a -> P + a <= A ->
  Rabs (E - P) <= 4 * u * P + k * (2 * u * A + 2 * G) -> Rabs (p - a) <= 4 * u * a + G ->
  0 <= E + p <= 2 * A + 3 * N * G /\ Rabs (rnd (E + p) - (P + a)) <= 4 * u * (P + a) + (k + 1) * (2 * u * A + 2 * G).
Proof using M M_pos N N_1 N_u eta_M eta_M2 M_big M_big1.
  intros K K1 E0 P0 p0 a0 LE H1 H2. pose proof uu as U. pose proof G_pos as GP. pose proof eta_G as EG.
  apply rabs_le' in H1. apply rabs_le' in H2.
  assert (A0 : 0 <= A) by lra. assert (uA : 0 <= u * A) by nra.
  assert (B1 : k * (2 * u * A) <= / 100000 * A).
  { replace (k * (2 * u * A)) with (2 * (k * u) * A) by ring. assert (k * u <= / 1000000) by nra. nra. }
  assert (B2 : 4 * u * (P + a) <= / 100000 * A) by nra.
  assert (B3 : k * (2 * G) + G <= 2 * N * G) by nra.
  assert (S : E + p <= A + / 50000 * A + 2 * N * G) by nra.
  split; [split; [lra|nra]|].
  pose proof (rnd_err (E + p)) as RE. rewrite (Rabs_pos_eq (E + p)) in RE by lra. apply rabs_le' in RE.
  assert (u * (E + p) + eta <= 2 * u * A + G).
  { assert (u * (E + p) <= u * (A + / 50000 * A + 2 * N * G)) by nra.
    assert (u * (2 * N * G) <= / 100000 * G) by nra. assert (u * G <= / 1000000 * G) by nra. nra. }
  apply rabs_le. nra.
Qed.

Lemma err_fold (m : f64) l : is_finite m = true -> Rabs (B2R m) <= 2 * M -> forall acc P A k, Forall okx l -> 0 <= k -> k + INR (length l) <= N -> is_finite acc = true ->
  0 <= B2R acc -> 0 <= P -> A <= 9 * N * (M * M) ->
  P + rsum (map (sq (B2R m)) (map (@B2R 53 1024) l)) = A ->
  Rabs (B2R acc - P) <= 4 * u * P + k * (2 * u * A + 2 * G) ->
  let r := fold_left (fun err c => let tmp := f_sub c m in f_add err (f_mul tmp tmp)) l acc in
  is_finite r = true /\ 0 <= B2R r /\ Rabs (B2R r - A) <= 4 * u * A + (k + INR (length l)) * (2 * u * A + 2 * G).
Proof using M M_pos N N_1 N_u eta_M eta_M2 M_big M_big1.
  intros FM BM. induction l as [|c l IH]; intros acc P A k OK K KN FA A0 P0 AB EA H1.
  - cbn [fold_left length INR map rsum fold_right] in *. rewrite Rplus_0_r in *. subst P. auto.
  - apply Forall_cons_iff in OK. destruct OK as [[FC BC] OK].
    replace (INR (length (c :: l))) with (INR (length l) + 1) in * by (cbn [length]; rewrite S_INR; reflexivity).
    pose proof (pos_INR (length l)) as PL. cbn [map rsum fold_right] in EA. fold (rsum (map (sq (B2R m)) (map (@B2R 53 1024) l))) in EA.
    pose proof (rsum_sq_pos (B2R m) (map (@B2R 53 1024) l)) as RS.
    set (a := B2R c - B2R m) in *.
    assert (Ba : Rabs a <= 3 * M).
    { unfold a. apply rabs_le' in BC. apply rabs_le' in BM. apply rabs_le. lra. }
    destruct (f_sub_ok c m FC FM) as [ES FS].
    { fold a. eapply Rle_trans; [exact Ba|]. nra. }
    destruct (sq_step a Ba) as [T1 [T2 T3]]. cbv zeta in T1, T2, T3. fold a in ES.
    assert (QM : Rabs (B2R (f_sub c m) * B2R (f_sub c m)) <= big).
    { rewrite ES, Rabs_mult. pose proof (Rabs_pos (rnd a)). assert (Rabs (rnd a) * Rabs (rnd a) <= 16 * (M * M)) by nra.
      assert (0 < M * M) by (apply Rmult_lt_0_compat; lra). assert (M * M * 20 <= M * M * (N * 20)) by (apply Rmult_le_compat_l; lra). lra. }
    destruct (f_mul_ok _ _ FS FS QM) as [EM FMM]. rewrite ES in EM.
    assert (Sq0 : 0 <= sq (B2R m) (B2R c)) by (unfold sq; apply Rle_0_sqr).
    assert (Saa : 0 <= a * a) by apply Rle_0_sqr.
    destruct (err_step (B2R acc) P A (a * a) (rnd (rnd a * rnd a)) k K ltac:(lra) A0 P0 T2 Saa) as [S1 S2].
    { unfold sq at 1 in EA. fold a in EA. lra. } { exact H1. } { exact T3. }
    pose proof G_pos as GP. pose proof uu as U.
    unfold sq at 1 in EA; fold a in EA.
    destruct (f_add_ok' acc (f_mul (f_sub c m) (f_sub c m)) FA FMM) as [EAD FAD].
    { rewrite EM. rewrite Rabs_pos_eq by lra. eapply Rle_trans; [apply S1|].
      assert (G <= M * M * / 1000000). { unfold G. clear - U M_pos. assert (V2 : 0 < u * u <= / 1000000) by nra. assert (V4 : u * u * u * u <= / 1000000) by (replace (u * u * u * u) with (u * u * (u * u)) by ring; nra).
        assert (0 < M * M) by (apply Rmult_lt_0_compat; lra). rewrite (Rmult_comm (M * M)). apply Rmult_le_compat_r; lra. }
      assert (MM : 0 < M * M) by (apply Rmult_lt_0_compat; lra).
      assert (3 * N * G <= 3 * N * (M * M * / 1000000)) by (apply Rmult_le_compat_l; lra).
      assert (0 < N * (M * M)) by (apply Rmult_lt_0_compat; lra). lra. }
    rewrite EM in EAD. cbn [fold_left]. cbv zeta.
    destruct (IH (f_add acc (f_mul (f_sub c m) (f_sub c m))) (P + a * a) A (k + 1) OK ltac:(lra) ltac:(lra) FAD) as [R1 [R2 R3]].
    { rewrite EAD. apply rnd_nonneg. lra. } { lra. } { exact AB. }
    { rewrite <- EA. ring. }
    { rewrite EAD. exact S2. }
    split; [exact R1|]. split; [exact R2|]. replace (k + (INR (length l) + 1)) with (k + 1 + INR (length l)) by ring. exact R3.
Qed.
End Err.
