(** C38: the constant scaling and reduction helpers of mkckks/utils.go. *)
From Flocq Require Import Core BinarySingleNaN.
From Coq Require Import Znumtheory Setoid Morphisms Reals Lra.
From Verif Require Import Base NumTheory Word BasisExt BasisExtProofs FloatModel CkksFloat FloatProofs CkksFloatProofs HelperModel.
Open Scope Z_scope.
Local Notation fexp64 := (SpecFloat.fexp 53 1024).

(** a float in [2^k, 2^(k+1)), k >= -2, is a multiple of 2^(k-52) *)
Lemma f64_mult (p : f64) k : -2 <= k -> (bpow radix2 k <= B2R p < bpow radix2 (k + 1))%R -> exists m, B2R p = (IZR m * bpow radix2 (k - 52))%R.
Proof.
  intros K [H1 H2]. pose proof (bpow_gt_0 radix2 k) as B0.
  pose proof (fmt_B2R p) as G. unfold generic_format in G. set (m := Ztrunc (scaled_mantissa radix2 fexp64 (B2R p))) in *.
  assert (M : mag radix2 (B2R p) = k + 1 :> Z). { apply mag_unique_pos. replace (k + 1 - 1) with k by ring. split; assumption. }
  assert (C : cexp radix2 fexp64 (B2R p) = k - 52). { unfold cexp, SpecFloat.fexp, SpecFloat.emin. rewrite M. lia. }
  rewrite C in G. exists m. exact G.
Qed.
Lemma bp2 k : 0 <= k -> bpow radix2 k = IZR (2 ^ k).
Proof. intros K. change 2 with (radix_val radix2). rewrite IZR_Zpower by exact K. reflexivity. Qed.

(** scaleUpExact rounds the product p to the nearest integer (halves up), except for one float below 1/2 and beyond 2^52 *)
Definition below_half : Rdefinitions.R := (/ 2 - bpow radix2 (-54))%R.
Lemma half_up_exact (p : f64) : is_finite p = true -> (0 <= B2R p < IZR (2 ^ 52))%R -> B2R p <> below_half ->
  f_trunc (f_add p f_half) = Zfloor (B2R p + / 2).
Proof.
  intros F [P0 P1] NB. destruct f_half_ok as [Eh Fh].
  assert (BG : (IZR (2 ^ 52) + 1 <= big)%R) by (unfold big; rewrite <- plus_IZR; apply IZR_le; lia).
  destruct (f_add_ok' p f_half F Fh) as [E FE]; [rewrite Eh, Rabs_pos_eq by lra; lra|]. rewrite Eh in E.
  set (x := (B2R p + / 2)%R) in *. set (k := Zfloor x). pose proof (Zfloor_lb x) as L1. pose proof (Zfloor_ub x) as L2. fold k in L1, L2.
  assert (K0 : 0 <= k) by (apply Zfloor_lub; cbn; unfold x; lra).
  assert (K1 : k <= 2 ^ 52) by (assert (k < 2 ^ 52 + 1); [apply lt_IZR; rewrite plus_IZR; unfold x in L1; lra|lia]).
  assert (B52 : bpow radix2 52 = IZR (2 ^ 52)) by (apply bp2; lia).
  assert (G : exists g, generic_format radix2 fexp64 g /\ (x <= g < IZR k + 1)%R).
  { assert (k < 2 ^ 52 \/ k = 2 ^ 52) as [K2|K2] by lia.
    - destruct (Rle_lt_dec x (IZR k + / 2)) as [A|A].
      + exists (IZR k + / 2)%R. split; [|lra]. replace (IZR k + / 2)%R with (F2R (Float radix2 (2 * k + 1) (-1))); [apply fmt_F2R; lia|].
        unfold F2R. cbn [Fnum Fexp bpow]. rewrite plus_IZR, mult_IZR. cbn. lra.
      + assert (PK : (IZR k < B2R p < IZR k + / 2)%R) by (unfold x in *; lra).
        destruct (Z.eq_dec k 0) as [->|KN].
        * destruct (Rlt_le_dec (B2R p) (/ 4)) as [Q|Q].
          { exists (3 / 4)%R. split; [|unfold x; lra]. replace (3 / 4)%R with (F2R (Float radix2 3 (-2))); [apply fmt_F2R; lia|]. unfold F2R. cbn. lra. }
          destruct (f64_mult p (-2)) as [m Em]; [lia|cbn; lra|]. change (-2 - 52) with (-54) in Em.
          exists (F2R (Float radix2 (2 ^ 53 - 1) (-53))). split; [apply fmt_F2R; lia|].
          assert (B54 : bpow radix2 (-54) = (/ IZR (2 ^ 54))%R) by reflexivity. assert (B53 : bpow radix2 (-53) = (/ IZR (2 ^ 53))%R) by reflexivity.
          assert (D54 : IZR (2 ^ 54) = (2 * IZR (2 ^ 53))%R) by (rewrite <- mult_IZR; reflexivity).
          assert (P53 : (0 < IZR (2 ^ 53))%R) by (apply IZR_lt; lia).
          assert (B54' : bpow radix2 (-54) = (/ 2 * bpow radix2 (-53))%R) by (rewrite B54, B53, D54; field; lra).
          assert (B53' : (IZR (2 ^ 53) * bpow radix2 (-53) = 1)%R) by (rewrite B53; field; lra).
          pose proof (bpow_gt_0 radix2 (-53)) as BP.
          assert (M1 : m < 2 ^ 53). { apply lt_IZR. apply Rmult_lt_reg_r with (bpow radix2 (-54)); [apply bpow_gt_0|]. rewrite <- Em, B54'. nra. }
          assert (M2 : m <> 2 ^ 53 - 1). { intros ->. apply NB. rewrite Em. unfold below_half. rewrite minus_IZR, B54'. nra. }
          assert (M3 : (IZR m <= IZR (2 ^ 53) - 2)%R) by (rewrite <- minus_IZR; apply IZR_le; lia).
          unfold F2R. cbn [Fnum Fexp]. rewrite minus_IZR. unfold x. rewrite Em, B54'. split; nra.
        * assert (K3 : 1 <= k) by lia. assert (PG : (1 <= B2R p)%R) by (apply Rle_trans with (IZR k); [apply IZR_le; exact K3|lra]).
          set (e := (mag radix2 (B2R p) - 1)%Z). assert (HE : (bpow radix2 e <= B2R p < bpow radix2 (e + 1))%R).
          { clear - PG. unfold e. destruct (mag radix2 (B2R p)) as [t Ht]. cbn [mag_val]. assert (NZ : B2R p <> 0%R) by lra. apply Ht in NZ. rewrite Rabs_pos_eq in NZ by lra. replace (t - 1 + 1) with t by ring. exact NZ. }
          assert (E0 : 0 <= e). { destruct (Z_lt_le_dec e 0) as [C|C]; [|exact C]. exfalso. assert (bpow radix2 (e + 1) <= bpow radix2 0)%R by (apply bpow_le; lia). cbn in H. lra. }
          assert (E1 : e < 52). { apply (lt_bpow radix2). rewrite B52. lra. }
          destruct (f64_mult p e ltac:(lia) HE) as [m Em]. set (w := bpow radix2 (e - 52)) in *. assert (W0 : (0 < w)%R) by apply bpow_gt_0.
          assert (HW : (IZR (2 ^ (51 - e)) * w = / 2)%R). { rewrite <- bp2 by lia. unfold w. rewrite <- bpow_plus. replace (51 - e + (e - 52)) with (-1) by ring. reflexivity. }
          assert (M1 : m < (2 * k + 1) * 2 ^ (51 - e)). { apply lt_IZR. apply Rmult_lt_reg_r with w; [exact W0|]. rewrite <- Em, mult_IZR, Rmult_assoc, HW, plus_IZR, mult_IZR. lra. }
          assert (K4 : k + 1 <= 2 ^ (e + 1)). { assert (k < 2 ^ (e + 1)); [|lia]. apply lt_IZR. rewrite <- bp2 by lia. lra. }
          exists (F2R (Float radix2 ((2 * k + 2) * 2 ^ (51 - e) - 1) (e - 52))). split.
          -- apply fmt_F2R; [|lia]. assert (2 ^ 53 = 2 * 2 ^ (e + 1) * 2 ^ (51 - e)) by (rewrite <- Z.mul_assoc, <- Z.pow_add_r by lia; replace (e + 1 + (51 - e)) with 52 by ring; reflexivity).
             assert (0 < 2 ^ (51 - e)) by (apply Z.pow_pos_nonneg; lia). nia.
          -- unfold F2R. cbn [Fnum Fexp]. fold w. rewrite minus_IZR, mult_IZR.
             replace ((IZR (2 * k + 2) * IZR (2 ^ (51 - e)) - 1) * w)%R with (IZR (2 * k + 2) * (IZR (2 ^ (51 - e)) * w) - w)%R by ring. rewrite HW.
             assert (M2 : (IZR m * w <= (IZR (2 * k + 1) * (IZR (2 ^ (51 - e)) * w) - w))%R).
             { replace (IZR (2 * k + 1) * (IZR (2 ^ (51 - e)) * w) - w)%R with ((IZR ((2 * k + 1) * 2 ^ (51 - e) - 1)) * w)%R by (rewrite minus_IZR, mult_IZR; ring).
               apply Rmult_le_compat_r; [lra|]. apply IZR_le. lia. }
             rewrite HW in M2. rewrite !plus_IZR, !mult_IZR in *. unfold x. rewrite Em. split; lra.
    - exists (IZR k). split; [apply fmt_int; lia|]. split; [|lra].
      assert (PL : (IZR (2 ^ 52) - / 2 <= B2R p)%R) by (rewrite K2 in L1; unfold x in L1; lra).
      assert (D51 : (2 * bpow radix2 51 = IZR (2 ^ 52))%R) by (rewrite bp2 by lia; rewrite <- mult_IZR; reflexivity).
      assert (G51 : (1 <= bpow radix2 51)%R) by (change 1%R with (bpow radix2 0); apply bpow_le; lia).
      destruct (f64_mult p 51) as [m Em]; [lia|change (51 + 1) with 52; rewrite B52; lra|]. change (bpow radix2 (51 - 52)) with (/ 2)%R in Em.
      assert (m < 2 * 2 ^ 52) by (apply lt_IZR; rewrite mult_IZR; lra). assert ((IZR m <= 2 * IZR (2 ^ 52) - 1)%R) by (rewrite <- mult_IZR, <- minus_IZR; apply IZR_le; lia).
      rewrite K2. unfold x. rewrite Em. lra. }
  destruct G as (g & G1 & G2 & G3).
  assert (U : (rnd x <= g)%R) by (rewrite <- (rnd_fmt g G1); apply rnd_le; exact G2).
  assert (LO : (IZR k <= rnd x)%R) by (rewrite <- (rnd_fmt (IZR k)); [apply rnd_le; exact L1|apply fmt_int; lia]).
  rewrite f_trunc_ok, E. unfold Ztrunc. assert (0 <= IZR k)%R by (apply IZR_le; exact K0). rewrite Rlt_bool_false by lra. apply Zfloor_imp. rewrite plus_IZR. lra.
Qed.

(** ** scaleUpExact *)
(** the sign of the value and the float64 product of the magnitudes *)
Definition neg_part (v : f64) (X : Z) : Z := if Rlt_bool (B2R v) 0 then - X else X.
Lemma f_lt0 (v : f64) : is_finite v = true -> f_lt v f_zero = Rlt_bool (B2R v) 0.
Proof.
  intros F. pose proof (f_lt_ok v f_zero F (proj2 f_zero_ok)) as LT. rewrite (proj1 f_zero_ok) in LT. case Rlt_bool_spec; intros H; [apply LT; exact H|].
  destruct (f_lt v f_zero); [|reflexivity]. exfalso. apply (Rlt_irrefl 0). apply Rle_lt_trans with (B2R v); [exact H|]. apply LT. reflexivity.
Qed.
Theorem C38_scale_up : forall (v n : f64) q, is_finite v = true -> is_finite n = true -> (0 <= B2R n)%R -> (Rabs (B2R n * B2R v) <= big / 4)%R -> 0 < q < W ->
  let p := rnd (B2R n * Rabs (B2R v)) in
  exists x X, scaleUpExact v n q = Ok x /\ 0 <= x <= q /\ eqz q x (neg_part v X) /\ (Rabs (IZR X - p) <= 1)%R /\
    ((p < IZR (2 ^ 52))%R -> p <> below_half -> X = Zfloor (p + / 2)).
Proof.
  intros v n q Fv Fn N0 HB Hq p. destruct (scaleUp_ok v n q Fv Fn N0 HB Hq) as (x & A1 & A2 & A3).
  destruct (sup_prod v n Fv Fn N0 HB) as (PE & PF & P0 & PB). fold p in PE. unfold supInt in A3. rewrite (f_lt0 v Fv) in A3, PE, PF, P0, PB.
  set (pf := if Rlt_bool (B2R v) 0 then f_mul (f_neg n) v else f_mul n v) in *. exists x, (f_trunc (f_add pf f_half)). split; [exact A1|]. split; [exact A2|].
  split; [exact A3|]. split; [rewrite <- PE; apply (half_up pf PF P0 PB)|]. intros L NB. rewrite <- PE in *. apply half_up_exact; [exact PF|split; assumption|exact NB].
Qed.
Print Assumptions C38_scale_up.
(** "the nearest integer" is false at one float below 1/2, and for odd integers in [2^52, 2^53) *)
Definition ex_bh : f64 := f_div (f_of_int (2 ^ 53 - 1)) (f_of_int (2 ^ 54)).
Theorem C38_scale_up_refuted : (B2R ex_bh < / 2)%R /\ is_finite ex_bh = true /\ scaleUpExact ex_bh f_one 97 = Ok 1 /\
  B2R (f_of_int (2 ^ 52 + 1)) = IZR (2 ^ 52 + 1) /\ scaleUpExact (f_of_int (2 ^ 52 + 1)) f_one (2 ^ 60) = Ok (2 ^ 52 + 2).
Proof.
  destruct (f_of_int_ok (2 ^ 53 - 1) ltac:(lia)) as [A1 A2]. destruct (f_of_int_ok (2 ^ 54) ltac:(lia)) as [B1 B2]. destruct (f_of_int_ok (2 ^ 52 + 1) ltac:(lia)) as [C1 C2].
  rewrite rnd_fmt in A1, C1 by (apply fmt_int; lia).
  rewrite rnd_fmt in B1 by (replace (IZR (2 ^ 54)) with (F2R (Float radix2 1 54)); [apply fmt_F2R; lia|unfold F2R; cbn; lra]).
  assert (P54 : (0 < IZR (2 ^ 54))%R) by (apply IZR_lt; lia).
  assert (V : (B2R (f_of_int (2 ^ 53 - 1)) / B2R (f_of_int (2 ^ 54)) = F2R (Float radix2 (2 ^ 53 - 1) (-54)))%R).
  { rewrite A1, B1. unfold F2R. cbn [Fnum Fexp]. change (bpow radix2 (-54)) with (/ IZR (2 ^ 54))%R. reflexivity. }
  assert (VL : (F2R (Float radix2 (2 ^ 53 - 1) (-54)) < / 2)%R).
  { unfold F2R. cbn [Fnum Fexp]. change (bpow radix2 (-54)) with (/ IZR (2 ^ 54))%R. apply Rmult_lt_reg_r with (IZR (2 ^ 54)); [exact P54|]. rewrite Rmult_assoc, Rinv_l by lra. rewrite minus_IZR. change (2 ^ 54) with (2 * 2 ^ 53). rewrite mult_IZR. lra. }
  assert (VP : (0 <= F2R (Float radix2 (2 ^ 53 - 1) (-54)))%R) by (apply F2R_ge_0; cbn; lia).
  destruct (f_div_ok (f_of_int (2 ^ 53 - 1)) (f_of_int (2 ^ 54)) A2) as [D1 D2]; [rewrite B1; lra|rewrite V, Rabs_pos_eq by exact VP; apply Rle_trans with 1%R; [lra|apply IZR_le; lia]|].
  fold ex_bh in D1, D2. rewrite V, rnd_fmt in D1 by (apply fmt_F2R; lia).
  split; [rewrite D1; exact VL|]. split; [exact D2|]. split; [vm_compute; reflexivity|]. split; [exact C1|vm_compute; reflexivity].
Qed.
Print Assumptions C38_scale_up_refuted.

(** ** scaleUpVecExact: one coefficient *)
Lemma below64 (p : f64) : (0 <= B2R p < IZR (2 ^ 64))%R -> (B2R p <= IZR (2 ^ 64 - 2 ^ 11))%R.
Proof.
  intros [H0 H1]. destruct (Rlt_le_dec (B2R p) (IZR (2 ^ 63))) as [A|A]; [apply Rle_trans with (IZR (2 ^ 63)); [lra|apply IZR_le; lia]|].
  destruct (f64_mult p 63) as [m Em]; [lia|rewrite !bp2 by lia; change (63 + 1) with 64; lra|]. rewrite bp2 in Em by lia. change (63 - 52) with 11 in Em.
  rewrite Em in *. rewrite <- mult_IZR in *. apply lt_IZR in H1. apply IZR_le. lia.
Qed.
Theorem C38_scale_up_vec : forall ud (v n : f64) q, is_finite v = true -> is_finite n = true -> (0 <= B2R n)%R -> (Rabs (B2R n * B2R v) <= big / 4)%R -> 0 < q < W ->
  rnd (B2R n * Rabs (B2R v)) <> IZR (2 ^ 64) -> scaleUpVecOne ud v n q = scaleUpExact v n q.
Proof.
  intros ud v n q Fv Fn N0 HB Hq NE. destruct (sup_prod v n Fv Fn N0 HB) as (PE & PF & P0 & PB).
  assert (FA : B2R (f_abs v) = Rabs (B2R v) /\ is_finite (f_abs v) = true) by (split; [apply B2R_Babs|unfold f_abs; rewrite is_finite_Babs; exact Fv]).
  destruct FA as [FA1 FA2]. assert (HB' : (Rabs (B2R n * Rabs (B2R v)) <= big)%R).
  { rewrite Rabs_mult, Rabs_Rabsolu, <- Rabs_mult. assert (0 <= big)%R by (unfold big; apply IZR_le; lia). lra. }
  destruct (f_mul_ok n (f_abs v) Fn FA2) as [M1 M2]; [rewrite FA1; exact HB'|]. rewrite FA1 in M1.
  assert (T64 : B2R f_two64 = IZR (2 ^ 64) /\ is_finite f_two64 = true).
  { destruct (f_of_int_ok (2 ^ 64) ltac:(lia)) as [A B]. split; [|exact B]. unfold f_two64. rewrite A. apply rnd_fmt. replace (IZR (2 ^ 64)) with (F2R (Float radix2 1 64)); [apply fmt_F2R; lia|unfold F2R; cbn; lra]. }
  destruct T64 as [T1 T2]. pose proof (f_lt_ok f_two64 (f_mul n (f_abs v)) T2 M2) as GT. rewrite T1, M1 in GT. unfold scaleUpVecOne, scaleUpExact. unfold f_gt.
  destruct (f_lt f_two64 (f_mul n (f_abs v))) eqn:EG; [reflexivity|].
  assert (LT : (rnd (B2R n * Rabs (B2R v)) < IZR (2 ^ 64))%R).
  { destruct (Rtotal_order (rnd (B2R n * Rabs (B2R v))) (IZR (2 ^ 64))) as [|[|]]; [assumption|contradiction|]. exfalso. assert (X : false = true) by (apply GT; lra). discriminate. }
  clear EG GT. rewrite <- PE in LT. set (neg := f_lt v f_zero) in *. set (pf := if neg then f_mul (f_neg n) v else f_mul n v) in *.
  assert (U : f_uint64 ud (f_add pf f_half) = f_trunc (f_add pf f_half)).
  { destruct f_half_ok as [Eh Fh]. destruct (f_add_ok' pf f_half PF Fh) as [E FE]; [rewrite Eh, Rabs_pos_eq by lra; exact PB|]. destruct (half_up pf PF P0 PB) as (H1 & H2 & _).
    unfold f_uint64. rewrite FE. cbv zeta. set (X := f_trunc (f_add pf f_half)) in *. destruct (Z.leb_spec 0 X); [|lia]. cbn [andb].
    destruct (Z.ltb_spec X W) as [|C]; [reflexivity|]. exfalso. pose proof (below64 pf (conj P0 LT)) as B. apply Rabs_le_inv in H2. apply IZR_le in C. change W with (2 ^ 64) in C. rewrite minus_IZR in B.
    assert (1 < IZR (2 ^ 11))%R by (apply IZR_lt; lia). lra. }
  assert (PD : pf = if neg then f_mul (f_neg n) v else f_mul n v) by reflexivity. clearbody pf neg. clear - PF U PD.
  destruct neg; rewrite <- PD, U; clear - PF; destruct pf; try discriminate PF; cbn [rbind]; reflexivity.
Qed.
Print Assumptions C38_scale_up_vec.
(** the whole vector: row j holds scaleUpExact of every value for modulus j, then zeroes *)
Theorem C38_scale_up_vec_all : forall ud (values : list f64) (n : f64) moduli len, is_finite n = true -> (0 <= B2R n)%R ->
  (forall v, In v values -> is_finite v = true /\ (Rabs (B2R n * B2R v) <= big / 4)%R /\ rnd (B2R n * Rabs (B2R v)) <> IZR (2 ^ 64)) ->
  (forall q, In q moduli -> 0 < q < W) -> (length values <= len)%nat ->
  exists rows, scaleUpVecExact ud values n moduli len = Ok rows /\ length rows = length moduli /\
    forall j, (j < length moduli)%nat -> length (nth j rows nil) = len /\
      forall i, (i < len)%nat -> if (i <? length values)%nat then scaleUpExact (nth i values f_zero) n (nth j moduli 0) = Ok (nth i (nth j rows nil) 0) else nth i (nth j rows nil) 0 = 0.
Proof.
  intros ud values n moduli len Fn N0 HV HQ HL. unfold scaleUpVecExact. destruct (Nat.ltb_spec len (length values)) as [C|_]; [lia|].
  assert (RA : forall A B (f : A -> res B) (l : list A) (d : A) (d' : B), (forall x, In x l -> exists y, f x = Ok y) -> exists ys, rall f l = Ok ys /\ length ys = length l /\ forall i, (i < length l)%nat -> f (nth i l d) = Ok (nth i ys d')).
  { intros A B f l d d'. induction l as [|x l IH]; intros H; [exists nil; split; [reflexivity|]; split; [reflexivity|cbn; lia]|].
    destruct (H x (or_introl eq_refl)) as [y Ey]. destruct (IH (fun z Hz => H z (or_intror Hz))) as (ys & E & L & G). exists (y :: ys). cbn [rall]. rewrite Ey. cbn [rbind]. rewrite E. cbn [rbind].
    split; [reflexivity|]. split; [cbn; lia|]. intros [|i] Hi; [exact Ey|]. cbn in Hi |- *. apply G. lia. }
  assert (ONE : forall v q, In v values -> In q moduli -> exists y, scaleUpVecOne ud v n q = Ok y /\ scaleUpExact v n q = Ok y).
  { intros v q Iv Iq. destruct (HV v Iv) as (A & B & C). destruct (C38_scale_up v n q A Fn N0 B (HQ q Iq)) as (x & X & E & _). exists x. split; [|exact E]. rewrite (C38_scale_up_vec ud v n q A Fn N0 B (HQ q Iq) C). exact E. }
  assert (ROW : forall q, In q moduli -> exists row, (row <- rall (fun v => scaleUpVecOne ud v n q) values ;; Ok (row ++ repeat 0 (len - length values))) = Ok row /\ length row = len /\
     forall i, (i < len)%nat -> if (i <? length values)%nat then scaleUpExact (nth i values f_zero) n q = Ok (nth i row 0) else nth i row 0 = 0).
  { intros q Iq. destruct (RA _ _ (fun v => scaleUpVecOne ud v n q) values f_zero 0) as (ys & E & L & G); [intros v Iv; destruct (ONE v q Iv Iq) as (y & Y & _); exists y; exact Y|].
    exists (ys ++ repeat 0 (len - length values)). rewrite E. split; [reflexivity|]. split; [rewrite app_length, repeat_length; lia|]. intros i Hi. destruct (Nat.ltb_spec i (length values)) as [K|K].
    - rewrite app_nth1 by lia. destruct (ONE (nth i values f_zero) q (nth_In _ _ K) Iq) as (y & Y1 & Y2). rewrite Y2. specialize (G i K). cbv beta in G. rewrite Y1 in G. exact G.
    - rewrite app_nth2 by lia. apply nth_repeat. }
  destruct (RA _ _ (fun q => row <- rall (fun v => scaleUpVecOne ud v n q) values ;; Ok (row ++ repeat 0 (len - length values))) moduli 0 nil) as (rows & E & L & G); [intros q Iq; destruct (ROW q Iq) as (r & R1 & _); exists r; exact R1|].
  exists rows. split; [exact E|]. split; [exact L|]. intros j Hj. destruct (ROW (nth j moduli 0) (nth_In _ _ Hj)) as (r & R1 & R2 & R3). specialize (G j Hj). cbv beta in G. rewrite R1 in G. injection G as <-. split; [exact R2|exact R3].
Qed.
Print Assumptions C38_scale_up_vec_all.
(** at exactly 2^64 the vector version converts an out-of-range float64: the result is whatever the implementation makes of it *)
Theorem C38_scale_up_vec_refuted : forall ud q, 0 < q < W -> scaleUpVecOne ud f_two64 f_one q = Ok (ud f_two64 mod q) /\ scaleUpExact f_two64 f_one q = Ok (2 ^ 64 mod q).
Proof.
  intros ud q Hq. unfold scaleUpVecOne, scaleUpExact.
  assert (A1 : f_gt (f_mul f_one (f_abs f_two64)) f_two64 = false) by (vm_compute; reflexivity). assert (A2 : f_lt f_two64 f_zero = false) by (vm_compute; reflexivity).
  assert (A3 : f_add (f_mul f_one f_two64) f_half = f_two64) by (apply B2SF_inj; vm_compute; reflexivity). rewrite A1, A2, A3. unfold f_uint64.
  assert (A4 : f_trunc f_two64 = 2 ^ 64) by (vm_compute; reflexivity). rewrite A4. split; [reflexivity|].
  assert (A5 : match f_mul f_one f_two64 with B754_nan => false | B754_infinity _ => false | _ => true end = true) by (vm_compute; reflexivity). revert A5. generalize (f_mul f_one f_two64). intros [] E; try discriminate E; reflexivity.
Qed.
Print Assumptions C38_scale_up_vec_refuted.

(** ** scaleUpVecExactBigFloat: one coefficient, values of precision p *)
Theorem C38_scale_up_big : forall p (v scale : Rdefinitions.R) q, 1 < q < 2 ^ 63 ->
  exists X, X = Ztrunc (bf_round p (bf_round p (scale * v) + (if Rlt_bool v 0 then - / 2 else / 2)))%R /\ eqz q (scaleUpBig p v scale q) X /\
    (if Rlt_bool v 0 then q <= scaleUpBig p v scale q < 2 * q else 0 <= scaleUpBig p v scale q < q).
Proof.
  intros p v scale q Hq. eexists. split; [reflexivity|]. unfold scaleUpBig. destruct (Rlt_bool v 0).
  - unfold Rminus. set (X := Ztrunc _). pose proof (Z.mod_pos_bound X q ltac:(lia)). unfold w64. rewrite Z.mod_small by (unfold W; lia). split; [|lia].
    exists (1 - X / q). pose proof (Z.div_mod X q ltac:(lia)). lia.
  - set (X := Ztrunc _). pose proof (Z.mod_pos_bound X q ltac:(lia)). unfold w64. rewrite Z.mod_small by (unfold W; lia). split; [apply eqz_mod|lia].
Qed.
Print Assumptions C38_scale_up_big.
Lemma flx_int p z : (0 < p) -> Z.abs z < 2 ^ p -> bf_round p (IZR z) = IZR z.
Proof.
  intros P H. apply round_generic; [apply valid_rnd_N|]. apply generic_format_FLX. exists (Float radix2 z 0); [unfold F2R; cbn; lra|exact H].
Qed.
Lemma flx_half p z : (0 < p) -> Z.abs (2 * z + 1) < 2 ^ p -> bf_round p (IZR z + / 2) = (IZR z + / 2)%R.
Proof.
  intros P H. apply round_generic; [apply valid_rnd_N|]. apply generic_format_FLX. exists (Float radix2 (2 * z + 1) (-1)); [unfold F2R; cbn [Fnum Fexp bpow]; rewrite plus_IZR, mult_IZR; cbn; lra|exact H].
Qed.
(** exact products below 2^(p-2) are not changed *)
Theorem C38_scale_up_big_int : forall p (v scale : Rdefinitions.R) z q, 1 < q < 2 ^ 63 -> 2 < p -> (0 <= scale)%R -> (scale * v = IZR z)%R -> Z.abs z < 2 ^ (p - 2) ->
  eqz q (scaleUpBig p v scale q) z.
Proof.
  intros p v scale z q Hq Hp S0 E HZ. destruct (C38_scale_up_big p v scale q Hq) as (X & EX & A & _). assert (P2 : 2 ^ p = 4 * 2 ^ (p - 2)) by (change 4 with (2 ^ 2); rewrite <- Z.pow_add_r by lia; f_equal; ring).
  assert (Z1 : 1 <= 2 ^ (p - 2)) by (apply (Z.pow_le_mono_r 2 0); lia).
  replace z with X; [exact A|]. rewrite EX, E, flx_int by lia. case Rlt_bool_spec; intros HV.
  - assert (z <= 0) by (apply le_IZR; rewrite <- E; nra). replace (IZR z + - / 2)%R with (IZR (z - 1) + / 2)%R by (rewrite minus_IZR; lra). rewrite flx_half by lia.
    unfold Ztrunc. assert ((IZR z <= 0)%R) by (apply IZR_le; assumption). rewrite Rlt_bool_true by (rewrite minus_IZR; lra). unfold Zceil. rewrite (Zfloor_imp (- z)); [lia|]. rewrite minus_IZR, plus_IZR, opp_IZR. lra.
  - assert (0 <= z) by (apply le_IZR; rewrite <- E; nra). rewrite flx_half by lia. unfold Ztrunc. assert ((0 <= IZR z)%R) by (apply IZR_le; assumption). rewrite Rlt_bool_false by lra.
    apply Zfloor_imp. rewrite plus_IZR. lra.
Qed.
Print Assumptions C38_scale_up_big_int.
(** the residues of negative values are not reduced: -1 is stored as 2q-1 *)
Theorem C38_scale_up_big_refuted : forall p q, 2 < p -> 1 < q < 2 ^ 63 -> scaleUpBig p (-1) 1 q = 2 * q - 1.
Proof.
  intros p q Hp Hq. unfold scaleUpBig. replace (1 * -1)%R with (IZR (-1)) by (cbn; lra). assert (2 ^ 3 <= 2 ^ p) by (apply Z.pow_le_mono_r; lia). change (2 ^ 3) with 8 in *.
  rewrite flx_int by lia. rewrite Rlt_bool_true by lra.
  replace (IZR (-1) - / 2)%R with (IZR (-2) + / 2)%R by (cbn; lra). rewrite flx_half by lia.
  replace (Ztrunc (IZR (-2) + / 2)) with (-1); [|symmetry; unfold Ztrunc; rewrite Rlt_bool_true by lra; unfold Zceil; rewrite (Zfloor_imp 1); [lia|cbn; lra]].
  replace (-1 mod q) with (q - 1) by (apply (Z.mod_unique_pos _ _ (-1)); lia). unfold w64. rewrite Z.mod_small by (unfold W; lia). lia.
Qed.
Print Assumptions C38_scale_up_big_refuted.

(** ** interfaceMod *)
Theorem C38_interface_mod : forall q, 0 < q < 2 ^ 63 ->
  (forall x, 0 <= x < 2 ^ 64 -> interfaceMod (IUint64 x) q = Ok (x mod q)) /\
  (forall x, interfaceMod (IBig x) q = Ok (x mod q)) /\
  (forall x, - 2 ^ 63 <= x <= 0 -> exists r, interfaceMod (IInt64 x) q = Ok r /\ 0 <= r <= q /\ eqz q r x /\ (r = q <-> x < 0 /\ x mod q = 0)) /\
  (forall x, 0 < x < 2 ^ 63 -> interfaceMod (IInt64 x) q = Ok x) /\
  interfaceMod IOther q = Panic.
Proof.
  intros q Hq. unfold interfaceMod. destruct (Z.eqb_spec q 0) as [|_]; [lia|]. split; [reflexivity|]. split.
  { intros x. destruct (Z.eqb_spec x 0) as [->|]; [rewrite Z.mod_0_l by lia; reflexivity|reflexivity]. }
  split; [|split; [|reflexivity]].
  - intros x Hx. destruct (Z.ltb_spec 0 x); [lia|]. destruct (Z.ltb_spec x 0) as [N|N].
    + pose proof (Z.rem_bound_pos (- x) q ltac:(lia) ltac:(lia)) as RB. rewrite Z.rem_opp_l in RB by lia. pose proof (Z.quot_rem x q ltac:(lia)) as QR. unfold w64. rewrite Z.mod_small by (unfold W; lia).
      eexists. split; [reflexivity|]. split; [lia|]. split; [exists (1 - Z.quot x q); lia|]. split.
      * intros E. split; [exact N|]. apply Z.mod_divide; [lia|]. exists (Z.quot x q). lia.
      * intros [_ E]. apply Z.mod_divide in E; [|lia]. apply Z.rem_divide in E; lia.
    + exists 0. split; [reflexivity|]. split; [lia|]. replace x with 0 by lia. split; [reflexivity|]. lia.
  - intros x Hx. destruct (Z.ltb_spec 0 x); [reflexivity|lia].
Qed.
Print Assumptions C38_interface_mod.
(** not the canonical residue: a positive int64 is returned unreduced, a negative multiple of q gives q *)
Theorem C38_interface_mod_refuted : interfaceMod (IInt64 100) 97 = Ok 100 /\ interfaceMod (IInt64 (-97)) 97 = Ok 97.
Proof. split; reflexivity. Qed.
Print Assumptions C38_interface_mod_refuted.

(** ** genBigIntChain *)
Theorem C38_chain : forall Q, (Q <> nil -> exists l, genBigIntChain Q = Ok l /\ length l = length Q /\ forall i, (i < length Q)%nat -> nth i l 0 = prodl (firstn (S i) Q)) /\
  (Q = nil -> genBigIntChain Q = Panic).
Proof.
  intros [|q0 Q]; (split; [|try reflexivity; discriminate]); [congruence|]. intros _. cbn [genBigIntChain]. eexists. split; [reflexivity|].
  assert (X : forall Q pre l c, length l = length pre -> pre <> nil -> c = prodl pre -> (forall i, (i < length pre)%nat -> nth i l 0 = prodl (firstn (S i) pre)) ->
    let r := fold_left (fun acc q => let c := q * snd acc in (fst acc ++ [c], c)) Q (l, c) in
    length (fst r) = length (pre ++ Q) /\ forall i, (i < length (pre ++ Q))%nat -> nth i (fst r) 0 = prodl (firstn (S i) (pre ++ Q))).
  { clear. induction Q as [|q Q IH]; intros pre l c L NN C H; cbn [fold_left].
    - cbn [fst]. rewrite app_nil_r. split; assumption.
    - cbn [fst snd]. replace (pre ++ q :: Q) with ((pre ++ [q]) ++ Q) by (rewrite <- app_assoc; reflexivity). apply IH.
      + rewrite !app_length, L. reflexivity.
      + destruct pre; discriminate.
      + rewrite prodl_app, C. cbn. lia.
      + intros i Hi. rewrite app_length in Hi. cbn [length] in Hi. destruct (Nat.eq_dec i (length pre)) as [->|NE].
        * rewrite <- L at 1. rewrite nth_middle. rewrite firstn_all2 by (rewrite app_length; cbn; lia). rewrite prodl_app, C. cbn. lia.
        * rewrite app_nth1 by lia. rewrite H by lia. rewrite firstn_app. replace (S i - length pre)%nat with 0%nat by lia. cbn [firstn]. rewrite app_nil_r. reflexivity. }
  apply (X Q [q0] [q0] q0); [reflexivity|discriminate|cbn; lia|]. intros i Hi. cbn in Hi. replace i with 0%nat by lia. cbn. lia.
Qed.
Print Assumptions C38_chain.

(** ** GenSwitchkeysRescalingParams: Montgomery form (times 2^64) of the inverse of P modulo every q *)
Theorem C38_rescaling_params : forall Q P i, (i < length Q)%nat -> let q := nth i Q 0 in prime q -> 2 < q < 2 ^ 61 -> ~ (q | prodl P) ->
  length (GenSwitchkeysRescalingParams Q P) = length Q /\ 0 <= nth i (GenSwitchkeysRescalingParams Q P) 0 < q /\
  eqz q (nth i (GenSwitchkeysRescalingParams Q P) 0 * prodl P) (2 ^ 64).
Proof.
  intros Q P i Hi q Pq Bq ND. unfold GenSwitchkeysRescalingParams. assert (EP : fold_left Z.mul P 1 = prodl P).
  { assert (X : forall l a, fold_left Z.mul l a = a * prodl l) by (induction l as [|x l IH]; intros a; cbn [fold_left]; [cbn; lia|rewrite IH; cbn; lia]). rewrite X. lia. }
  rewrite EP. split; [apply map_length|]. set (g := fun q => mform (mod_exp (prodl P mod q) (q - 2) q) q (bred_params q)). rewrite (nth_indep _ 0 (g 0)) by (rewrite map_length; exact Hi). rewrite (map_nth g). fold q. unfold g.
  pose proof (Z.mod_pos_bound (prodl P) q ltac:(lia)) as MB. rewrite mod_exp_ok by (unfold W; lia). set (x := prodl P mod q) in *.
  pose proof (Z.mod_pos_bound (x ^ (q - 2)) q ltac:(lia)) as MB2. destruct (mform_mont (x ^ (q - 2) mod q) q (conj Pq Bq) ltac:(unfold W; lia)) as [M1 M2].
  split; [exact M1|]. assert (NDx : ~ (q | x)) by (intros D; apply ND; apply Z.mod_divide in D; [|lia]; unfold x in D; rewrite Z.mod_mod in D by lia; apply Z.mod_divide; lia).
  pose proof (invm_eqz q x Pq NDx) as I. unfold invm in I. rewrite powm_ok in I by lia.
  assert (EX : eqz q (prodl P) x) by (symmetry; apply eqz_mod). rewrite M2, EX. replace (x ^ (q - 2) mod q * W * x) with (x * (x ^ (q - 2) mod q) * W) by ring. rewrite I. change W with (2 ^ 64). apply eqz_eq. ring.
Qed.
Print Assumptions C38_rescaling_params.

Example C38_nonvacuous : is_finite (f_of_int (-7)) = true /\ is_finite f_half = true /\ (0 <= B2R f_half)%R /\ (Rabs (B2R f_half * B2R (f_of_int (-7))) <= big / 4)%R /\
  scaleUpExact (f_of_int (-7)) f_half 97 = Ok (97 - 4) /\ genBigIntChain [3; 5; 7] = Ok [3; 15; 105] /\ ~ (97 | prodl [113; 241]).
Proof.
  destruct (f_of_int_ok (-7) ltac:(lia)) as [A B]. rewrite rnd_fmt in A by (apply fmt_int; lia). destruct f_half_ok as [E F].
  split; [exact B|]. split; [exact F|]. split; [rewrite E; lra|]. split; [|split; [vm_compute; reflexivity|split; [reflexivity|]]].
  - rewrite A, E. assert (BG : (100 <= big)%R) by (unfold big; apply IZR_le; lia). apply Rabs_le. lra.
  - intros D. apply Z.mod_divide in D; [|lia]. vm_compute in D. discriminate.
Qed.
