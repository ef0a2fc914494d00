(** C52: a short rule for the precision of CKKS programs when the scale and the moduli are close to each other (as in the parameter sets of the repository).
    Specification (kb, kcost, kokb) first, then the proof that the rule dominates the bounds of C48. *)
From Flocq Require Import Core BinarySingleNaN.
From Coq Require Import Znumtheory Setoid Morphisms Reals Lra.
From Verif Require Import Base IdSetModel KeySetModel NumTheory Negacyclic Ntt Word BasisExt BasisExtProofs DecompProofs BasisSpec Rows RlweModel KeyGenModel SchemeSpec ExtProd ExtProps Galois KeyGenProofs CtModel CtSpec CtProofs EncDecProofs EncMsgModel KeySwitchModel Digits KsLoops RotProofs ConjProofs MulProofs PropsEnc PropsKeySwitch PropsRotate FloatModel CkksFloat CkksModel FloatProofs CkksFloatProofs CkksProofs CkksRescale PropsCkks PropsRescale Slots PropsSlots CkksSlots CkksCircuit PropsCkksCircuit PropsCkksScale PropsCkksCircuitEx.
Open Scope Z_scope.
Notation RR := Rdefinitions.R.

(** *** the rule: for every register its level, a bound of the absolute values of its slots, a bound of the error of its slots *)
Record kb := KB { bl : nat; bmu : RR; berr : RR }.
Section Rule.
  (** L: level of fresh ciphertexts; cA: cost of unequal scales; cR: a rotation or conjugation; cM: a product; cD: relative drift of the stored scale *)
  Variables (L : nat) (cA cR cM cD : RR).
  (** bounds of the plaintexts (absolute value, error) *)
  Variable pb : list (RR * RR).
  Definition prule (l : nat) (m0 e0 m1 e1 : RR) : kb := let p := (m0 * e1 + m1 * e0 + e0 * e1)%R in KB (l - 1) (m0 * m1) (p + cD * (m0 * m1 + p) + cM).
  Definition kcost (i : kinstr) (bs : list kb) : kb :=
    let b a := nth a bs (KB 0 0 0) in
    match i with
    | KAdd i j | KSub i j => let l := Nat.min (bl (b i)) (bl (b j)) in
        KB l (bmu (b i) + bmu (b j)) (berr (b i) + berr (b j) + IZR (2 ^ Z.of_nat (L - l) - 1) * cA * (bmu (b i) + berr (b i) + bmu (b j) + berr (b j)))
    | KMul i j => prule (Nat.min (bl (b i)) (bl (b j))) (bmu (b i)) (berr (b i)) (bmu (b j)) (berr (b j))
    | KRot i _ | KConj i => KB (bl (b i)) (bmu (b i)) (berr (b i) + cR)
    | KPt i p => let q := nth p pb (0, 0)%R in prule (bl (b i)) (fst q) (snd q) (bmu (b i)) (berr (b i))
    | KDrop i n => KB (bl (b i) - n) (bmu (b i)) (berr (b i))
    end.
  (** operands exist; products need a level to drop, conjugation the full level *)
  Definition kokb (i : kinstr) (bs : list kb) : Prop :=
    let l a := bl (nth a bs (KB 0 0 0)) in
    match i with
    | KAdd i j | KSub i j => (i < length bs)%nat /\ (j < length bs)%nat
    | KMul i j => (i < length bs)%nat /\ (j < length bs)%nat /\ (1 <= l i)%nat /\ (1 <= l j)%nat
    | KRot i _ => (i < length bs)%nat
    | KConj i => (i < length bs)%nat /\ l i = L
    | KPt i p => (i < length bs)%nat /\ (p < length pb)%nat /\ (1 <= l i)%nat
    | KDrop i n => (i < length bs)%nat /\ (n <= l i)%nat
    end.
  Fixpoint kokrun (prog : list kinstr) (bs : list kb) : Prop := match prog with nil => True | i :: prog => kokb i bs /\ kokrun prog (bs ++ [kcost i bs]) end.
  Definition kcost_run (prog : list kinstr) (bs : list kb) : list kb := fold_left (fun bs i => bs ++ [kcost i bs]) prog bs.
End Rule.

(** *** floats: one division of a product of two scales *)
Section Float.
  Open Scope R_scope.
  Lemma rel_mul x y : / 2 <= x -> Rabs (y - x) <= 2 * u * x -> (1 - 2 * u) * x <= y <= (1 + 2 * u) * x.
  Proof. intros H E. apply Rabs_le_inv in E. lra. Qed.
  Lemma tol_bnd : 0 < u <= / 1024. Proof. rewrite u_val. change (2 ^ 53)%Z with 9007199254740992%Z. lra. Qed.
  (** (a b) / q for a, b, q within 1 % of s, divided again by q' *)
  Lemma one_division (a b : f64) (s : RR) (q q' : Z) : is_finite a = true -> is_finite b = true -> 1024 <= s <= IZR (2 ^ 62) ->
    99 / 100 * s <= B2R a <= 101 / 100 * s -> 99 / 100 * s <= B2R b <= 101 / 100 * s -> 99 / 100 * s <= IZR q <= 101 / 100 * s -> 99 / 100 * s <= IZR q' -> (0 < q < 2 ^ 64)%Z -> (0 < q' < 2 ^ 64)%Z ->
    is_finite (f_div (f_mul a b) (f_of_int q)) = true /\ s / 2 < B2R (f_div (f_mul a b) (f_of_int q)) /\
    is_finite (f_div (f_div (f_mul a b) (f_of_int q)) (f_of_int q')) = true /\ B2R (f_div (f_div (f_mul a b) (f_of_int q)) (f_of_int q')) < s / 2.
  Proof.
    intros Fa Fb S A B Q Q' QZ QZ'. pose proof tol_bnd as U. set (w := u) in *.
    assert (BIG : IZR (2 ^ 200) <= big) by (unfold big; apply IZR_le; vm_compute; discriminate).
    assert (S2 : IZR (2 ^ 62) * IZR (2 ^ 62) * 4 <= IZR (2 ^ 200)) by (rewrite <- !mult_IZR; apply IZR_le; vm_compute; discriminate).
    set (M := IZR (2 ^ 62)) in *. clearbody M.
    assert (SS : s * s <= M * M) by (apply Rmult_le_compat; lra).
    assert (P : 98 / 100 * (s * s) <= B2R a * B2R b <= 103 / 100 * (s * s)).
    { split; [apply Rle_trans with ((99 / 100 * s) * (99 / 100 * s)); [nra|]|apply Rle_trans with ((101 / 100 * s) * (101 / 100 * s)); [|nra]]; apply Rmult_le_compat; lra. }
    assert (SP : 1024 * s <= s * s) by (apply Rmult_le_compat_r; lra).
    destruct (f_mul_ok a b Fa Fb) as [M1 M2]; [rewrite Rabs_right by lra; lra|]. set (x := B2R a * B2R b) in *. set (m := f_mul a b) in *.
    pose proof (rel_mul x (B2R m) ltac:(lra)) as MB. rewrite M1 in MB. specialize (MB (rnd_rel x ltac:(lra))). fold w in MB. rewrite <- M1 in MB.
    assert (IQ : forall q, (0 < q < 2 ^ 64)%Z -> 99 / 100 * s <= IZR q -> is_finite (f_of_int q) = true /\ (1 - 2 * w) * IZR q <= B2R (f_of_int q) <= (1 + 2 * w) * IZR q).
    { intros z Hz HS. destruct (f_of_int_ok z) as [Q1 Q2]; [lia|]. split; [exact Q2|]. rewrite Q1. apply rel_mul; [lra|apply rnd_rel; lra]. }
    destruct (IQ q QZ (proj1 Q)) as [F1 B1]. destruct (IQ q' QZ' Q') as [F2 B2]. set (fq := f_of_int q) in *. set (fq' := f_of_int q') in *. clear IQ.
    assert (W : 0 < w <= / 1000) by lra.
    assert (WM : forall y, 0 <= y -> 0 <= w * y <= / 1000 * y) by (intros y Hy; split; [apply Rmult_le_pos; lra|apply Rmult_le_compat_r; lra]).
    pose proof (WM (IZR q) ltac:(lra)) as W1. pose proof (WM (IZR q') ltac:(lra)) as W2. pose proof (WM x ltac:(lra)) as W3.
    assert (K1 : 98 / 100 * s <= B2R fq <= 102 / 100 * s) by lra. assert (K2 : 98 / 100 * s <= B2R fq') by lra.
    assert (K3 : 97 / 100 * (s * s) <= B2R m <= 104 / 100 * (s * s)) by lra.
    assert (D1 : 9 / 10 * s <= B2R m / B2R fq <= 12 / 10 * s).
    { set (f := B2R fq) in *. set (mm := B2R m) in *. assert (E : mm / f * f = mm) by (field; lra). set (d := mm / f) in *. split; apply Rmult_le_reg_r with f; try lra; rewrite E.
      - apply Rle_trans with (9 / 10 * s * (102 / 100 * s)); [apply Rmult_le_compat_l; lra|]. lra.
      - apply Rle_trans with (12 / 10 * s * (98 / 100 * s)); [lra|]. apply Rmult_le_compat_l; lra. }
    destruct (f_div_ok' m fq M2) as [V1 V2]; [lra|rewrite Rabs_right by lra; lra|].
    assert (D2 := rel_mul (B2R m / B2R fq) _ ltac:(lra) (rnd_rel (B2R m / B2R fq) ltac:(lra))). fold w in D2. rewrite <- V1 in D2. set (d := B2R m / B2R fq) in *. pose proof (WM d ltac:(lra)) as W4. set (r := f_div m fq) in *.
    assert (D3 : 89 / 100 * s <= B2R r <= 121 / 100 * s) by lra.
    assert (D4 : 0 <= B2R r / B2R fq' <= 2).
    { set (f := B2R fq') in *. set (mm := B2R r) in *. assert (E : mm / f * f = mm) by (field; lra). set (d2 := mm / f) in *. split; apply Rmult_le_reg_r with f; try lra; rewrite E; lra. }
    destruct (f_div_ok' r fq' V2) as [V3 V4]; [lra|rewrite Rabs_right by lra; lra|].
    split; [exact V2|]. split; [lra|]. split; [exact V4|]. rewrite V3. apply Rle_lt_trans with (rnd 2); [apply rnd_le; lra|]. rewrite (rnd_fmt 2) by (apply fmt_int; lia). lra.
  Qed.
  (** the new scale: s (1 +- (2 d + e)) *)
  Lemma scale_step (s a b q r d g e : RR) : 0 < s -> 0 <= d <= / 1024 -> 0 <= g <= / 1024 -> 0 <= e <= / 1024 -> d * d + 101 / 100 * g <= e ->
    Rabs (a / s - 1) <= d -> Rabs (b / s - 1) <= d -> 0 < q -> 0 < r -> 1 - g <= (q / s) * (a * b / (q * r)) <= 1 + g -> Rabs (r / s - 1) <= 2 * d + e.
  Proof.
    intros S D G E H A B Q R W. apply Rabs_le_inv in A. apply Rabs_le_inv in B.
    replace (q / s * (a * b / (q * r))) with ((a / s) * (b / s) / (r / s)) in W by (field; lra). assert (RP : 0 < r / s) by (apply Rdiv_lt_0_compat; lra).
    set (x := a / s) in *. set (y := b / s) in *. set (z := r / s) in *. clearbody x y z. clear a b q r Q R S s.
    assert (EQ : x * y / z * z = x * y) by (field; lra). set (v := x * y / z) in *. clearbody v.
    assert (X1 : (1 - d) * (1 - d) <= x * y) by (apply Rmult_le_compat; lra). assert (X2 : x * y <= (1 + d) * (1 + d)) by (apply Rmult_le_compat; lra).
    assert (Y1 : (1 - g) * z <= x * y) by (rewrite <- EQ; apply Rmult_le_compat_r; lra). assert (Y2 : x * y <= (1 + g) * z) by (rewrite <- EQ; apply Rmult_le_compat_r; lra).
    assert (G1 : g * d <= / 1024 * g) by (rewrite (Rmult_comm g); apply Rmult_le_compat_r; lra). assert (G2 : g * e <= / 1024 * g) by (rewrite (Rmult_comm g); apply Rmult_le_compat_r; lra).
    apply Rabs_le. split.
    - assert (Z : (1 + g) * (1 - 2 * d - e) <= (1 + g) * z) by nra. apply Rmult_le_reg_l in Z; lra.
    - assert (Z : (1 - g) * z <= (1 - g) * (1 + 2 * d + e)) by nra. apply Rmult_le_reg_l in Z; lra.
  Qed.
  Lemma f_mul_comm (a b : f64) : is_finite a = true -> is_finite b = true -> Rabs (B2R a * B2R b) <= big -> 0 < B2R (f_mul a b) -> f_mul a b = f_mul b a.
  Proof.
    intros Fa Fb H P. destruct (f_mul_ok a b Fa Fb H) as [A1 A2]. rewrite Rmult_comm in H. destruct (f_mul_ok b a Fb Fa H) as [B1 B2]. rewrite (Rmult_comm (B2R b)) in B1.
    assert (ST : forall x : f64, is_finite x = true -> 0 < B2R x -> is_finite_strict x = true) by (intros [? | | |] F X; cbn in *; try lra; try discriminate; reflexivity).
    apply B2R_inj; [apply ST; assumption|apply ST; [exact B2|rewrite B1, <- A1; exact P]|congruence].
  Qed.
End Float.

(** *** the rule dominates the bounds of C48 *)
Ltac kmono := repeat match goal with
  | |- ?x <= ?x => apply Z.le_refl
  | H : ?g |- ?g => exact H
  | |- 0 <= Z.of_nat _ => apply Nat2Z.is_nonneg
  | |- 0 <= _ / _ => apply Z.div_pos
  | |- 0 <= _ * _ => apply Z.mul_nonneg_nonneg
  | |- 0 <= _ + _ => apply Z.add_nonneg_nonneg
  | |- _ / _ <= _ / _ => apply Z.div_le_mono
  | |- _ * _ <= _ * _ => apply Z.mul_le_mono_nonneg
  | |- _ + _ <= _ + _ => apply Z.add_le_mono
  | |- Z.of_nat _ <= Z.of_nat _ => apply Nat2Z.inj_le
  | H : 0 < ?x |- 0 <= ?x => apply Z.lt_le_incl; exact H
  end.
Lemma kslack_nn x : 0 <= x -> 0 <= slack x.
Proof. intros H. unfold slack. pose proof (Z.div_pos x (2 ^ 40) H ltac:(lia)). lia. Qed.
Lemma kmaxl_nn l : 0 <= maxl l. Proof. unfold maxl. induction l as [|x l IH]; cbn [fold_right]; lia. Qed.
Lemma kdig_nn pp l : 0 <= dig_bound pp l. Proof. unfold dig_bound. apply kslack_nn. apply kmaxl_nn. Qed.
Lemma kones_le p : 0 <= onesp p <= Z.log2 (Zpos p) + 1.
Proof.
  induction p as [p IH|p IH|]; cbn [onesp]; [| |cbn; lia].
  - replace (Zpos p~1) with (2 * Zpos p + 1) by lia. rewrite Z.log2_succ_double by lia. lia.
  - replace (Zpos p~0) with (2 * Zpos p) by lia. rewrite Z.log2_double by lia. lia.
Qed.
Lemma krot_le {N} (crs : crsT N) k : (2 <= N)%nat -> 0 <= rot_count crs (k mod Z.of_nat (N / 2)) <= Z.log2_up (Z.of_nat N).
Proof.
  intros N2. pose proof (Nat.div_mod N 2 ltac:(lia)) as DM. assert (H0 : (0 < N / 2)%nat) by (apply Nat.div_str_pos; lia).
  pose proof (Z.mod_pos_bound k (Z.of_nat (N / 2)) ltac:(lia)) as MB. set (q := k mod _) in *. pose proof (Z.log2_up_pos (Z.of_nat N) ltac:(lia)) as L0.
  unfold rot_count. destruct (Z.eqb_spec q 0) as [E|NE]; [lia|]. destruct (mget Z.eq_dec crs q); [lia|].
  destruct q as [|p|p]; [lia| |lia]. cbn [ones]. pose proof (kones_le p) as O. split; [lia|]. pose proof (Z.le_log2_log2_up (Z.of_nat N)). assert (X : Z.log2 (2 * Z.pos p) <= Z.log2 (Z.of_nat N)) by (apply Z.log2_le_mono; lia).
  rewrite Z.log2_double in X by lia. lia.
Qed.
Lemma kswitch_nn {N} pp l B T : wfp N pp -> 0 <= B -> 0 <= T -> 0 <= switch_noise N pp l (dig_bound pp l) B T.
Proof.
  intros WF HB HT. assert (PP : 0 < Pprod pp) by (apply (Pprod_pos pp WF)). pose proof (kslack_nn (Pprod pp) ltac:(lia)) as S3. pose proof (kdig_nn pp l). unfold switch_noise. kmono.
Qed.
Lemma kmul_mono {N} pp level n0 n1 K D0 D1 B T : wfp N pp -> 0 <= B -> 0 <= T -> 0 <= D0 -> 0 <= D1 -> (n0 <= K)%nat -> (n1 <= K)%nat -> 0 <= mul_noise N pp level n0 n1 D0 D1 B T <= mul_noise N pp level K K D0 D1 B T.
Proof.
  intros WF HB HT HD0 HD1 H0 H1. assert (PP : 0 < Pprod pp) by (apply (Pprod_pos pp WF)). pose proof (kslack_nn (Pprod pp) ltac:(lia)) as S3. pose proof (kswitch_nn pp level B T WF HB HT) as SW.
  unfold mul_noise. split; kmono.
Qed.

Section Dominate.
  Context {N : nat} (pp : rparams) (WF : wfp N pp) (ps : f64) (crs : crsT N) (B T : Z) (HB : 0 <= B) (HT : 0 <= T) (K : nat) (P : list string) (HP : (length P <= K)%nat).
  Notation L := (maxLevel pp). Notation half := (f_div ps (f_of_int 2)).
  Variables (S eta e1 cA cR cM cD : RR) (MN : Z).
  Hypothesis HS : B2R ps = S /\ is_finite ps = true /\ (1024 <= S <= IZR (2 ^ 62))%R.
  Hypothesis HH : is_finite half = true /\ B2R half = (S / 2)%R.
  Hypothesis HQ : forall j, (1 <= j <= L)%nat -> (Rabs (IZR (mq (Qi pp j)) / S - 1) <= eta)%R.
  Hypothesis HQ0 : (99 / 100 * S <= IZR (mq (Qi pp 0)))%R.
  Notation dr l := (IZR (2 ^ Z.of_nat (L - l) - 1) * e1)%R.
  Hypothesis Heta : (0 <= eta <= / 2048)%R.
  Hypothesis He1 : (0 <= e1 /\ dr 0%nat <= / 1024 /\ dr 0%nat * dr 0%nat + 101 / 100 * (eta + / IZR (2 ^ 48)) <= e1 <= / 1024)%R.
  Hypothesis HcA : (3 * e1 <= cA)%R.
  Hypothesis HcD : (/ IZR (2 ^ 48) <= cD)%R.
  Hypothesis HcR : forall l, (l <= L)%nat -> (INR N * IZR (Z.log2_up (Z.of_nat N) * (Z.of_nat K * switch_noise N pp l (dig_bound pp l) B T)) <= cR * (99 / 100 * S))%R.
  Hypothesis HMN : forall l0 l1, (l0 <= L)%nat -> (l1 <= L)%nat -> mul_noise N pp (Nat.min l0 l1) K K (dig_bound pp l0) (dig_bound pp l1) B T <= MN.
  Hypothesis HcM : (INR N * (2 * IZR MN + 101 / 100 * S * IZR (1 + Z.of_nat K * (Z.of_nat N * T))) <= 2 * (98 / 100) * (S * S) * cM)%R.

  Lemma dr_mono l l' : (l' <= l)%nat -> (0 <= dr l <= dr l')%R.
  Proof.
    intros H. destruct He1 as [E _]. assert (X : 1 <= 2 ^ Z.of_nat (L - l) <= 2 ^ Z.of_nat (L - l')) by (split; [apply (Z.pow_le_mono_r 2 0); lia|apply Z.pow_le_mono_r; lia]).
    split; [apply Rmult_le_pos; [apply IZR_le; lia|exact E]|]. apply Rmult_le_compat_r; [exact E|]. apply IZR_le. lia.
  Qed.
  Lemma dr_step l : (1 <= l <= L)%nat -> (dr (l - 1) = 2 * dr l + e1)%R.
  Proof.
    intros H. replace (Z.of_nat (L - (l - 1))) with (Z.succ (Z.of_nat (L - l))) by lia. rewrite Z.pow_succ_r by lia. rewrite !minus_IZR, mult_IZR. ring.
  Qed.
  Lemma dr_small l : (0 <= dr l <= / 1024)%R.
  Proof. pose proof (dr_mono l 0 ltac:(lia)). destruct He1 as (_ & X & _). lra. Qed.
  Lemma close x l : (Rabs (x / S - 1) <= dr l)%R -> (99 / 100 * S <= x <= 101 / 100 * S)%R.
  Proof.
    intros H. pose proof (dr_small l) as D. apply Rabs_le_inv in H. destruct HS as (_ & _ & [S1 _]). assert (E : (x / S * S = x)%R) by (field; lra). set (y := (x / S)%R) in *. clearbody y. rewrite <- E. split; apply Rmult_le_compat_r; lra.
  Qed.
  Lemma qclose j : (1 <= j <= L)%nat -> (99 / 100 * S <= IZR (mq (Qi pp j)) <= 101 / 100 * S)%R.
  Proof.
    intros H. specialize (HQ j H). apply Rabs_le_inv in HQ. destruct HS as (_ & _ & [S1 _]). set (x := IZR (mq (Qi pp j))) in *. assert (E : (x / S * S = x)%R) by (field; lra). set (y := (x / S)%R) in *. clearbody y. rewrite <- E. split; apply Rmult_le_compat_r; lra.
  Qed.

  (** one product at [level]: exactly one division, and what remains of the scale *)
  Lemma one_product (a b : f64) level : (1 <= level <= L)%nat -> fpos a -> fpos b -> (Rabs (B2R a / S - 1) <= dr level)%R -> (Rabs (B2R b / S - 1) <= dr level)%R ->
    let sc := f_mul a b in let r := rscale pp level sc 1 in let D := prodl (dropped pp 1 level) in
    D = mq (Qi pp level) /\ fpos sc /\ divisions pp level sc half 1 /\ fpos r /\ (Rabs (B2R r / S - 1) <= dr (level - 1))%R /\ (Rabs (B2R a * B2R b / (IZR D * B2R r) - 1) <= cD)%R.
  Proof.
    intros HL Fa Fb Ha Hb sc r D. pose proof (close _ _ Ha) as Ca. pose proof (close _ _ Hb) as Cb. pose proof (qclose level HL) as Cq. destruct HS as (S0 & S1 & S2). destruct HH as (H1 & H2). destruct Fa as [Fa Pa]. destruct Fb as [Fb Pb].
    assert (LQ : (L < length (Qm pp))%nat) by (pose proof (wf_Qpos _ _ WF); unfold maxLevel; lia).
    assert (ED : D = mq (Qi pp level)) by (unfold D, dropped; cbn [seq map]; unfold prodl; cbn [fold_right]; rewrite Nat.sub_0_r; ring).
    assert (QZ : forall j, (j <= L)%nat -> 0 < mq (Qi pp j) < 2 ^ 64) by (intros j Hj; destruct (okQ pp WF j ltac:(lia)) as [_ [_ QB]]; unfold W in QB; lia).
    assert (CQ' : (99 / 100 * S <= IZR (mq (Qi pp (level - 1))))%R).
    { destruct (Nat.eq_dec level 1) as [->|NE]; [exact HQ0|]. apply (qclose (level - 1) ltac:(lia)). }
    destruct (one_division a b S (mq (Qi pp level)) (mq (Qi pp (level - 1))) Fa Fb S2 Ca Cb Cq CQ' (QZ level ltac:(lia)) (QZ (level - 1)%nat ltac:(lia))) as (O1 & O2 & O3 & O4).
    assert (ER : r = f_div sc (f_of_int (mq (Qi pp level)))) by (unfold r; cbn [rscale]; rewrite Nat.sub_0_r; reflexivity).
    assert (DV : divisions pp level sc half 1).
    { split; [lia|]. split.
      - intros i Hi. assert (i = 0%nat) by lia. subst i. fold r. rewrite ER. unfold f_ge. apply (f_le_ok half _ H1 O1). lra.
      - change (rscale pp level sc 2) with (f_div r (f_of_int (mq (Qi pp (level - 1))))). rewrite ER. unfold f_ge. destruct (f_le half _) eqn:E; [|reflexivity]. apply (f_le_ok half _ H1 O3) in E. exfalso. unfold sc in E. lra. }
    assert (AB : (B2R a * B2R b <= IZR (2 ^ 900))%R).
    { apply Rle_trans with (IZR (2 ^ 63) * IZR (2 ^ 63))%R; [|rewrite <- mult_IZR; apply IZR_le; vm_compute; discriminate].
      assert (X : (101 / 100 * IZR (2 ^ 62) <= IZR (2 ^ 63))%R) by (change (2 ^ 63) with (2 * 2 ^ 62); rewrite mult_IZR; assert (0 < IZR (2 ^ 62))%R by (apply IZR_lt; reflexivity); lra). apply Rmult_le_compat; lra. }
    destruct (C48_scale_drift N pp level a b half 1 WF ltac:(lia) Fa Fb H1) as (D1 & D2 & D3); trivial; try lra.
    fold sc D r in D1, D2, D3.
    assert (D4 : (Rabs (B2R a * B2R b / (IZR D * B2R r) - 1) <= / IZR (2 ^ 48) * (999 / 1000))%R).
    { eapply Rle_trans; [exact D3|]. cbn [pow]. change (2 ^ 50) with 1125899906842624. change (2 ^ 48) with 281474976710656. lra. }
    assert (T0 : (0 < / IZR (2 ^ 48))%R) by (apply Rinv_0_lt_compat; apply IZR_lt; reflexivity).
    split; [exact ED|]. split; [exact D1|]. split; [exact DV|]. split; [exact D2|]. split; [|lra].
    rewrite (dr_step level HL). rewrite ED in D4. destruct D2 as [_ RP]. pose proof (dr_small level) as DS. pose proof (dr_mono level 0 ltac:(lia)) as DM. destruct He1 as (E0 & _ & E3 & E4).
    assert (QP : (0 < IZR (mq (Qi pp level)))%R) by (apply IZR_lt; apply QZ; lia).
    assert (T1 : (/ IZR (2 ^ 48) <= / 1048576)%R) by (apply Rinv_le_contravar; [lra|apply IZR_le; vm_compute; discriminate]). set (t := (/ IZR (2 ^ 48))%R) in *.
    assert (DD : (dr level * dr level <= dr 0%nat * dr 0%nat)%R) by (apply Rmult_le_compat; lra).
    pose proof (HQ level HL) as Hq. set (q := IZR (mq (Qi pp level))) in *. set (x := (B2R a * B2R b / (q * B2R r))%R) in *. set (d := (IZR (2 ^ Z.of_nat (L - level) - 1) * e1)%R) in *. set (d0 := (IZR (2 ^ Z.of_nat (L - 0) - 1) * e1)%R) in *.
    apply (scale_step S (B2R a) (B2R b) q (B2R r) d (eta + t) e1); trivial; try lra.
    fold x. apply Rabs_le_inv in Hq. apply Rabs_le_inv in D4. set (y := (q / S)%R) in *. clearbody x y. split.
    - apply Rle_trans with ((1 - eta) * (1 - t * (999 / 1000)))%R; [|apply Rmult_le_compat; lra]. assert (0 <= eta * t)%R by (apply Rmult_le_pos; lra). nra.
    - apply Rle_trans with ((1 + eta) * (1 + t * (999 / 1000)))%R; [apply Rmult_le_compat; lra|]. assert (eta * t <= / 1024 * t)%R by (apply Rmult_le_compat_r; lra). lra.
  Qed.

  (** a register of the plan of C48 and one of the rule *)
  Definition krel (t : kinfo) (b : kb) : Prop :=
    klev t = bl b /\ (klev t <= L)%nat /\ kmu t = bmu b /\ (0 <= kmu t)%R /\ (0 <= keps t <= berr b)%R /\ fpos (ksc t) /\ (Rabs (B2R (ksc t) / S - 1) <= dr (klev t))%R /\ NoDup (kids t) /\ incl (kids t) P.
  Lemma krel_len t b : krel t b -> (length (kids t) <= K)%nat.
  Proof. intros (_ & _ & _ & _ & _ & _ & _ & N1 & N2). pose proof (NoDup_incl_length N1 N2). lia. Qed.
  Lemma krel_close t b l : krel t b -> (l <= klev t)%nat -> (Rabs (B2R (ksc t) / S - 1) <= dr l)%R.
  Proof. intros (_ & _ & _ & _ & _ & _ & H & _) Hl. pose proof (dr_mono (klev t) l Hl). lra. Qed.
  Lemma SP : (0 < S)%R. Proof. destruct HS as (_ & _ & [X _]). lra. Qed.

  (** sums *)
  Lemma aligned_le (x y m e l : RR) : (0 < x)%R -> (0 < y)%R -> (0 <= m)%R -> (0 <= e)%R -> (0 <= l <= / 1024)%R -> (Rabs (x / S - 1) <= l)%R -> (Rabs (y / S - 1) <= l)%R -> (0 <= aligned 1 x y m e <= e + 3 * l * (m + e))%R.
  Proof.
    intros X Y M E Hl A C. unfold aligned. pose proof SP as S0. assert (Q : (Rabs (1 * x / y - 1) <= 3 * l)%R).
    { replace (1 * x / y)%R with ((x / S) / (y / S))%R by (field; lra). apply Rabs_le_inv in A. apply Rabs_le_inv in C. set (a := (x / S)%R) in *. set (c := (y / S)%R) in *. assert (E2 : (a / c * c = a)%R) by (field; lra). set (v := (a / c)%R) in *. clearbody a c v.
      apply Rabs_le. split; apply Rmult_le_reg_r with c; try lra; [|]; rewrite Rmult_minus_distr_r, E2; nra. }
    pose proof (Rabs_pos (1 * x / y - 1)). set (r := Rabs (1 * x / y - 1)) in *. split; [assert (0 <= r * (m + e))%R by (apply Rmult_le_pos; lra); lra|].
    assert (r * (m + e) <= 3 * l * (m + e))%R by (apply Rmult_le_compat_r; lra). lra.
  Qed.
  Lemma sum_rel a b ba bb : krel a ba -> krel b bb ->
    okratio (ksc a) (ksc b) /\ okratio (ksc b) (ksc a) /\ krel (sum_info a b) (KB (Nat.min (bl ba) (bl bb)) (bmu ba + bmu bb) (berr ba + berr bb + IZR (2 ^ Z.of_nat (L - Nat.min (bl ba) (bl bb)) - 1) * cA * (bmu ba + berr ba + bmu bb + berr bb))).
  Proof.
    intros Ra Rb. set (l := Nat.min (klev a) (klev b)). pose proof (krel_close _ _ l Ra ltac:(unfold l; lia)) as Ca. pose proof (krel_close _ _ l Rb ltac:(unfold l; lia)) as Cb. pose proof (dr_small l) as DS. pose proof SP as S0.
    pose proof (close _ _ Ca) as Ka. pose proof (close _ _ Cb) as Kb.
    destruct Ra as (A1 & A2 & A3 & A4 & A5 & A6 & A7 & A8 & A9). destruct Rb as (B1 & B2 & B3 & B4 & B5 & B6 & B7 & B8 & B9).
    assert (RT : forall x y, (99 / 100 * S <= x)%R -> (y <= 101 / 100 * S)%R -> (y / x <= IZR (2 ^ 52 - 1))%R).
    { intros x y H1 H2. apply Rle_trans with 2%R; [|apply IZR_le; vm_compute; discriminate]. apply Rmult_le_reg_r with x; [lra|]. unfold Rdiv. rewrite Rmult_assoc, Rinv_l by lra. lra. }
    split; [left; apply RT; lra|]. split; [left; apply RT; lra|].
    assert (K0 : align_factor (ksc a) (ksc b) = 1) by (apply align_one; [exact A6|lra]). assert (K1 : align_factor (ksc b) (ksc a) = 1) by (apply align_one; [exact B6|lra]).
    unfold sum_info. rewrite K0, K1. unfold krel. cbn [klev ksc kids kmu keps bl bmu berr]. rewrite <- A1, <- B1, <- A3, <- B3. fold l.
    assert (MX : fpos (f_max (ksc a) (ksc b)) /\ (Rabs (B2R (f_max (ksc a) (ksc b)) / S - 1) <= dr l)%R) by (unfold f_max; destruct (f_ge (ksc a) (ksc b)); split; assumption). destruct MX as [MX1 MX2].
    pose proof (aligned_le (B2R (ksc a)) (B2R (f_max (ksc a) (ksc b))) (kmu a) (keps a) (dr l) (proj2 A6) (proj2 MX1) A4 ltac:(lra) DS Ca MX2) as QA.
    pose proof (aligned_le (B2R (ksc b)) (B2R (f_max (ksc a) (ksc b))) (kmu b) (keps b) (dr l) (proj2 B6) (proj2 MX1) B4 ltac:(lra) DS Cb MX2) as QB.
    split; [reflexivity|]. split; [lia|]. split; [reflexivity|]. split; [lra|]. split; [|split; [exact MX1|split; [exact MX2|split; [apply NoDup_nodup|intros x Hx; apply nodup_In in Hx; apply in_app_iff in Hx as [Hx|Hx]; auto]]]].
    split; [lra|]. set (w := IZR (2 ^ Z.of_nat (L - l) - 1)) in *. assert (W0 : (0 <= w)%R) by (apply IZR_le; assert (1 <= 2 ^ Z.of_nat (L - l)) by (apply (Z.pow_le_mono_r 2 0); lia); lia).
    assert (X : (3 * (w * e1) * (kmu a + keps a + (kmu b + keps b)) <= w * cA * (kmu a + berr ba + kmu b + berr bb))%R); [|lra].
    apply Rmult_le_compat; [|lra| |lra]. { assert (0 <= w * e1)%R by lra. lra. } assert (w * (3 * e1) <= w * cA)%R by (apply Rmult_le_compat_l; lra). lra.
  Qed.

  (** products *)
  Lemma prod_rel ids la lb lev (sa sb : f64) (M0 M1 e2 : Z) (m0 m1 ea eb ba bb : RR) : (1 <= Nat.min la lb)%nat -> (la <= L)%nat -> (lb <= L)%nat -> lev = Nat.min la lb -> fpos sa -> fpos sb ->
    (Rabs (B2R sa / S - 1) <= dr lev)%R -> (Rabs (B2R sb / S - 1) <= dr lev)%R -> (0 <= m0)%R -> (0 <= m1)%R -> (0 <= ea <= ba)%R -> (0 <= eb <= bb)%R -> NoDup ids -> incl ids P ->
    let D := prodl (dropped pp 1 lev) in 0 <= e2 <= 2 * MN + round2 N T D K ->
    krel (prod_info N ids (lev - 1) (rscale pp lev (f_mul sa sb) 1) (B2R sa) (B2R sb) D e2 M0 M1 m0 ea m1 eb) (prule cM cD lev m0 ba m1 bb).
  Proof.
    intros HL La Lb -> Fa Fb Ca Cb P0 P1 E0 E1 ND IN D He2. set (lev := Nat.min la lb) in *. assert (HL' : (1 <= lev <= L)%nat) by lia.
    destruct (one_product sa sb lev HL' Fa Fb Ca Cb) as (ED & O1 & O2 & O3 & O4 & O5). fold D in ED, O5. set (r := rscale pp lev (f_mul sa sb) 1) in *.
    pose proof (close _ _ O4) as Cr. pose proof (qclose lev HL') as Cq. rewrite <- ED in Cq. pose proof SP as S0.
    unfold prod_info, prule, krel, prod_eps. cbn [klev ksc kids kmu keps bl bmu berr].
    split; [reflexivity|]. split; [lia|]. split; [reflexivity|]. split; [apply Rmult_le_pos; assumption|]. split; [|split; [exact O3|split; [exact O4|split; [exact ND|exact IN]]]].
    set (p := (m0 * eb + m1 * ea + ea * eb)%R). set (p' := (m0 * bb + m1 * ba + ba * bb)%R).
    assert (PP : (0 <= p <= p')%R).
    { unfold p, p'. assert (0 <= m0 * eb <= m0 * bb)%R by (split; [apply Rmult_le_pos|apply Rmult_le_compat_l]; lra). assert (0 <= m1 * ea <= m1 * ba)%R by (split; [apply Rmult_le_pos|apply Rmult_le_compat_l]; lra).
      assert (0 <= ea * eb <= ba * bb)%R by (split; [apply Rmult_le_pos|apply Rmult_le_compat]; lra). lra. }
    assert (MM : (0 <= m0 * m1)%R) by (apply Rmult_le_pos; assumption). set (mm := (m0 * m1)%R) in *.
    pose proof (Rabs_pos (B2R sa * B2R sb / (IZR D * B2R r) - 1)) as RP. set (v := Rabs (B2R sa * B2R sb / (IZR D * B2R r) - 1)) in *.
    assert (V1 : (0 <= v * (mm + p) <= cD * (mm + p'))%R) by (split; [apply Rmult_le_pos; lra|apply Rmult_le_compat; lra]).
    assert (IE : (0 <= IZR e2)%R) by (apply IZR_le; lia).
    assert (DR : (98 / 100 * (S * S) <= IZR D * B2R r)%R) by (apply Rle_trans with ((99 / 100 * S) * (99 / 100 * S))%R; [nra|apply Rmult_le_compat; lra]).
    assert (SS : (0 < S * S)%R) by (apply Rmult_lt_0_compat; lra).
    assert (IN0 : (0 <= INR N)%R) by apply pos_INR.
    assert (V2 : (0 <= INR N * IZR e2 / (2 * IZR D * B2R r) <= cM)%R).
    { assert (DP : (0 < 2 * IZR D * B2R r)%R) by lra. split; [apply Rmult_le_pos; [apply Rmult_le_pos; lra|left; apply Rinv_0_lt_compat; exact DP]|].
      apply Rmult_le_reg_r with (2 * IZR D * B2R r)%R; [exact DP|]. unfold Rdiv. rewrite Rmult_assoc, Rinv_l, Rmult_1_r by lra.
      apply Rle_trans with (INR N * (2 * IZR MN + 101 / 100 * S * IZR (1 + Z.of_nat K * (Z.of_nat N * T))))%R.
      - apply Rmult_le_compat_l; [exact IN0|]. apply Rle_trans with (IZR (2 * MN + round2 N T D K)); [apply IZR_le; lia|]. unfold round2. rewrite plus_IZR, (mult_IZR 2), (mult_IZR (D - 1)). apply Rplus_le_compat_l. apply Rmult_le_compat_r.
        + apply IZR_le. assert (0 <= Z.of_nat K * (Z.of_nat N * T)) by (repeat apply Z.mul_nonneg_nonneg; lia). lia.
        + rewrite minus_IZR. lra.
      - eapply Rle_trans; [exact HcM|]. assert (C0 : (0 <= cM)%R).
        { apply Rmult_le_reg_l with (2 * (98 / 100) * (S * S))%R; [lra|]. rewrite Rmult_0_r. eapply Rle_trans; [|exact HcM]. apply Rmult_le_pos; [exact IN0|]. assert (0 <= IZR MN)%R.
          { apply IZR_le. pose proof (HMN 0 0 ltac:(lia) ltac:(lia)) as X. pose proof (kmul_mono pp (Nat.min 0 0) K K K (dig_bound pp 0) (dig_bound pp 0) B T WF HB HT (kdig_nn pp 0) (kdig_nn pp 0) (le_n K) (le_n K)). lia. }
          assert (0 <= IZR (1 + Z.of_nat K * (Z.of_nat N * T)))%R by (apply IZR_le; assert (0 <= Z.of_nat K * (Z.of_nat N * T)) by (repeat apply Z.mul_nonneg_nonneg; lia); lia).
          assert (0 <= S * IZR (1 + Z.of_nat K * (Z.of_nat N * T)))%R by (apply Rmult_le_pos; lra). lra. }
        rewrite (Rmult_comm cM). apply Rmult_le_compat_r; [exact C0|]. lra. }
    lra.
  Qed.

  (** noise of key switching *)
  Lemma noisy_rel a ba (e : Z) : krel a ba -> 0 <= e <= Z.log2_up (Z.of_nat N) * (Z.of_nat K * switch_noise N pp (klev a) (dig_bound pp (klev a)) B T) -> krel (noisy N a e) (KB (bl ba) (bmu ba) (berr ba + cR)).
  Proof.
    intros RA He. pose proof (krel_close _ _ (klev a) RA ltac:(lia)) as C. pose proof (close _ _ C) as Ca. pose proof SP as S0. destruct RA as (A1 & A2 & A3 & A4 & A5 & A6 & A7 & A8 & A9). unfold noisy, krel. cbn [klev ksc kids kmu keps bl bmu berr].
    split; [exact A1|]. split; [exact A2|]. split; [exact A3|]. split; [exact A4|]. split; [|split; [exact A6|split; [exact A7|split; assumption]]].
    assert (IE : (0 <= IZR e)%R) by (apply IZR_le; lia). assert (IN0 : (0 <= INR N)%R) by apply pos_INR. assert (NE : (0 <= INR N * IZR e)%R) by (apply Rmult_le_pos; lra).
    assert (X : (0 <= INR N * IZR e / B2R (ksc a) <= cR)%R); [|lra]. split; [apply Rmult_le_pos; [exact NE|left; apply Rinv_0_lt_compat; lra]|].
    apply Rmult_le_reg_r with (B2R (ksc a)); [lra|]. unfold Rdiv. rewrite Rmult_assoc, Rinv_l, Rmult_1_r by lra.
    eapply Rle_trans; [apply Rmult_le_compat_l; [exact IN0|]; apply IZR_le; apply He|]. eapply Rle_trans; [apply HcR; exact A2|].
    assert (C0 : (0 <= cR)%R). { apply Rmult_le_reg_r with (99 / 100 * S)%R; [lra|]. rewrite Rmult_0_l. eapply Rle_trans; [|apply (HcR (klev a) A2)]. apply Rmult_le_pos; [exact IN0|]. apply IZR_le. lia. }
    apply Rmult_le_compat_l; lra.
  Qed.

  Variables (pis : list kpinfo) (pb : list (RR * RR)).
  Hypothesis HPT : length pis = length pb /\ forall p q, nth_error pis p = Some q -> psc q = ps /\ (0 <= pmu q)%R /\ (0 <= peps q)%R /\ nth p pb (0, 0)%R = (pmu q, peps q).
  Definition kinv (ts : list kinfo) (bs : list kb) : Prop := length ts = length bs /\ forall a t, nth_error ts a = Some t -> krel t (nth a bs (KB 0 0 0)).
  Notation cost := (kcost L cA cR cM cD pb). Notation okb := (kokb L pb).
  (** the registers a call reads *)
  Definition kuses (i : kinstr) : list nat := match i with KAdd i j | KSub i j | KMul i j => [i; j] | KRot i _ | KConj i | KPt i _ | KDrop i _ => [i] end.
  Lemma step_rel' i ts bs : length ts = length bs -> (forall a t, In a (kuses i) -> nth_error ts a = Some t -> krel t (nth a bs (KB 0 0 0))) -> okb i bs -> exists t, kstep N pp ps crs B T pis ts i t /\ krel t (cost i bs).
  Proof.
    intros HLn HI OK. pose proof (proj1 (wf_N _ _ WF)) as N2. destruct HS as (S0 & S1 & S2).
    assert (GET' : forall a, In a (kuses i) -> (a < length bs)%nat -> exists t, nth_error ts a = Some t /\ krel t (nth a bs (KB 0 0 0))).
    { intros a Hu Ha. destruct (nth_error ts a) as [t|] eqn:E; [exists t; split; [reflexivity|apply HI; assumption]|]. apply nth_error_None in E. lia. }
    assert (PSD : fpos ps /\ (Rabs (B2R ps / S - 1) <= 0)%R). { split; [split; [exact S1|rewrite S0; lra]|]. rewrite S0. replace (S / S - 1)%R with 0%R by (field; lra). rewrite Rabs_R0. lra. }
    destruct i as [i j|i j|i j|i k|i|i p|i n]; cbn [kokb kcost] in *; assert (GET := fun a u => GET' a u); cbn [kuses In] in GET.
    - destruct OK as [O1 O2]. destruct (GET i (or_introl eq_refl) O1) as (a & Ea & Ra). destruct (GET j (or_intror (or_introl eq_refl)) O2) as (b & Eb & Rb). destruct (sum_rel a b _ _ Ra Rb) as (X1 & X2 & X3). eexists. split; [apply (kstep_add N pp ps crs B T pis ts i j a b Ea Eb X1 X2)|exact X3].
    - destruct OK as [O1 O2]. destruct (GET i (or_introl eq_refl) O1) as (a & Ea & Ra). destruct (GET j (or_intror (or_introl eq_refl)) O2) as (b & Eb & Rb). destruct (sum_rel a b _ _ Ra Rb) as (X1 & X2 & X3). eexists. split; [apply (kstep_sub N pp ps crs B T pis ts i j a b Ea Eb X1 X2)|exact X3].
    - destruct OK as (O1 & O2 & O3 & O4). destruct (GET i (or_introl eq_refl) O1) as (a & Ea & Ra). destruct (GET j (or_intror (or_introl eq_refl)) O2) as (b & Eb & Rb).
      pose proof (krel_close _ _ (Nat.min (klev a) (klev b)) Ra ltac:(lia)) as Ca. pose proof (krel_close _ _ (Nat.min (klev a) (klev b)) Rb ltac:(lia)) as Cb. pose proof (krel_len _ _ Ra) as La. pose proof (krel_len _ _ Rb) as Lb.
      destruct Ra as (A1 & A2 & A3 & A4 & A5 & A6 & A7 & A8 & A9). destruct Rb as (B1 & B2 & B3 & B4 & B5 & B6 & B7 & B8 & B9). rewrite <- A1 in *. rewrite <- B1 in *. rewrite <- A3, <- B3.
      destruct (one_product (ksc a) (ksc b) (Nat.min (klev a) (klev b)) ltac:(lia) A6 B6 Ca Cb) as (ED & P1 & P2 & P3 & _ & _).
      eexists. split; [apply (kstep_mul N pp ps crs B T pis ts i j a b 1 Ea Eb O3 O4 P1 P2 P3)|].
      assert (IU : NoDup (nodup string_dec (kids a ++ kids b)) /\ incl (nodup string_dec (kids a ++ kids b)) P) by (split; [apply NoDup_nodup|intros x Hx; apply nodup_In in Hx; apply in_app_iff in Hx as [Hx|Hx]; auto]). destruct IU as [IU1 IU2].
      apply (prod_rel _ (klev a) (klev b)); trivial; try lia.
      pose proof (kmul_mono pp (Nat.min (klev a) (klev b)) (length (kids a)) (length (kids b)) K (dig_bound pp (klev a)) (dig_bound pp (klev b)) B T WF HB HT (kdig_nn pp _) (kdig_nn pp _) La Lb) as MM. specialize (HMN (klev a) (klev b) A2 B2).
      pose proof (NoDup_incl_length IU1 IU2) as LU. rewrite ED. set (D := mq (Qi pp (Nat.min (klev a) (klev b)))) in *. assert (DP : 1 <= D) by (destruct (okQ pp WF (Nat.min (klev a) (klev b))) as [_ [_ QB]]; [pose proof (wf_Qpos _ _ WF); unfold maxLevel in *; lia|unfold D; lia]).
      assert (R2 : 0 <= round2 N T D (length (nodup string_dec (kids a ++ kids b))) <= round2 N T D K).
      { unfold round2. set (n := length (nodup string_dec (kids a ++ kids b))) in *. assert (NT : 0 <= Z.of_nat N * T) by (apply Z.mul_nonneg_nonneg; lia). set (NT' := Z.of_nat N * T) in *.
        assert (Y : 0 <= Z.of_nat n * NT' <= Z.of_nat K * NT') by (split; [apply Z.mul_nonneg_nonneg; lia|apply Z.mul_le_mono_nonneg_r; lia]). split; [apply Z.mul_nonneg_nonneg; lia|apply Z.mul_le_mono_nonneg_l; lia]. }
      lia.
    - destruct (GET i (or_introl eq_refl) OK) as (a & Ea & Ra). eexists. split; [apply (kstep_rot N pp ps crs B T pis ts i k a Ea)|]. apply noisy_rel; [exact Ra|]. pose proof (krot_le crs k N2) as RL. pose proof (krel_len _ _ Ra) as La. pose proof (kswitch_nn pp (klev a) B T WF HB HT) as SW. destruct RL as [RL0 RL]. split; kmono.
    - destruct OK as [O1 O2]. destruct (GET i (or_introl eq_refl) O1) as (a & Ea & Ra). assert (EL : klev a = L) by (destruct Ra as (X & _); congruence). eexists. split; [apply (kstep_conj N pp ps crs B T pis ts i a Ea EL)|]. apply noisy_rel; [exact Ra|]. rewrite EL. pose proof (krel_len _ _ Ra) as La. pose proof (kswitch_nn pp L B T WF HB HT) as SW.
      assert (L1 : 1 <= Z.log2_up (Z.of_nat N)) by (pose proof (Z.log2_up_pos (Z.of_nat N) ltac:(lia)); lia). set (sw := switch_noise _ _ _ _ _ _) in *.
      assert (Y : 0 <= Z.of_nat (length (kids a)) * sw <= Z.of_nat K * sw) by (split; [apply Z.mul_nonneg_nonneg; lia|apply Z.mul_le_mono_nonneg_r; lia]). split; [lia|]. apply Z.le_trans with (1 * (Z.of_nat K * sw)); [lia|]. apply Z.mul_le_mono_nonneg_r; lia.
    - destruct OK as (O1 & O2 & O3). destruct (GET i (or_introl eq_refl) O1) as (a & Ea & Ra). destruct HPT as [HP1 HP2]. destruct (nth_error pis p) as [q|] eqn:Eq; [|apply nth_error_None in Eq; lia]. destruct (HP2 p q Eq) as (Q1 & Q2 & Q3 & Q4). rewrite Q4. destruct q as [qs qM qm qe]. cbn [fst snd psc pmu peps pM] in *. subst qs.
      pose proof (krel_close _ _ (klev a) Ra ltac:(lia)) as Ca. pose proof (krel_len _ _ Ra) as La. destruct Ra as (A1 & A2 & A3 & A4 & A5 & A6 & A7 & A8 & A9). rewrite <- A1 in *. rewrite <- A3. destruct PSD as [PS1 PS2]. pose proof (dr_small (klev a)) as DS.
      assert (Cp : (Rabs (B2R ps / S - 1) <= dr (klev a))%R) by lra.
      destruct (one_product (ksc a) ps (klev a) ltac:(lia) A6 PS1 Ca Cp) as (ED & P1 & P2 & P3 & _ & _).
      assert (FC : f_mul (ksc a) ps = f_mul ps (ksc a)).
      { apply f_mul_comm; [apply A6|exact S1| |apply P1]. pose proof (close _ _ Ca) as CC. rewrite S0. destruct A6 as [_ A6]. rewrite Rabs_right by (apply Rle_ge; apply Rmult_le_pos; lra). apply Rle_trans with (IZR (2 ^ 63) * IZR (2 ^ 63))%R; [|unfold big; rewrite <- mult_IZR; apply IZR_le; vm_compute; discriminate].
        assert (X : (101 / 100 * IZR (2 ^ 62) <= IZR (2 ^ 63))%R) by (change (2 ^ 63) with (2 * 2 ^ 62); rewrite mult_IZR; assert (0 < IZR (2 ^ 62))%R by (apply IZR_lt; reflexivity); lra). apply Rmult_le_compat; lra. }
      eexists. split; [apply (kstep_pt N pp ps crs B T pis ts i p a (KP ps qM qm qe) 1 Ea Eq O3 P1 P2 P3)|].
      cbn [psc pmu peps pM]. rewrite FC. apply (prod_rel _ (klev a) (klev a)); trivial; try lia; try lra. rewrite ED. pose proof (HMN (klev a) (klev a) A2 A2) as X.
      pose proof (kmul_mono pp (Nat.min (klev a) (klev a)) K K K (dig_bound pp (klev a)) (dig_bound pp (klev a)) B T WF HB HT (kdig_nn pp _) (kdig_nn pp _) (le_n K) (le_n K)) as MM.
      set (D := mq (Qi pp (klev a))) in *. assert (DP : 1 <= D) by (destruct (okQ pp WF (klev a)) as [_ [_ QB]]; [pose proof (wf_Qpos _ _ WF); unfold maxLevel in *; lia|unfold D; lia]).
      assert (R2 : 0 <= round2 N T D (length (kids a)) <= round2 N T D K).
      { unfold round2. assert (NT : 0 <= Z.of_nat N * T) by (apply Z.mul_nonneg_nonneg; lia). set (NT' := Z.of_nat N * T) in *.
        assert (Y : 0 <= Z.of_nat (length (kids a)) * NT' <= Z.of_nat K * NT') by (split; [apply Z.mul_nonneg_nonneg; lia|apply Z.mul_le_mono_nonneg_r; lia]). split; [apply Z.mul_nonneg_nonneg; lia|apply Z.mul_le_mono_nonneg_l; lia]. }
      lia.
    - destruct OK as [O1 O2]. destruct (GET i (or_introl eq_refl) O1) as (a & Ea & Ra). pose proof (krel_close _ _ (klev a - n) Ra ltac:(lia)) as Ca. destruct Ra as (A1 & A2 & A3 & A4 & A5 & A6 & A7 & A8 & A9). rewrite <- A1 in *.
      eexists. split; [apply (kstep_drop N pp ps crs B T pis ts i n a Ea O2)|]. unfold krel. cbn [klev ksc kids kmu keps bl bmu berr]. repeat (split; [first [assumption|reflexivity|lia]|]). assumption.
  Qed.
  Lemma step_rel i ts bs : kinv ts bs -> okb i bs -> exists t, kstep N pp ps crs B T pis ts i t /\ krel t (cost i bs).
  Proof. intros [HLn HI] OK. apply step_rel'; [exact HLn|intros a t _; apply HI|exact OK]. Qed.

  Notation run := (kcost_run L cA cR cM cD pb). Notation okrun := (kokrun L cA cR cM cD pb).
  Lemma run_rel prog : forall ts bs, kinv ts bs -> okrun prog bs -> exists ts', ksteps N pp ps crs B T pis ts prog ts' /\ kinv ts' (run prog bs).
  Proof.
    induction prog as [|i prog IH]; intros ts bs KI OK; [exists ts; split; [constructor|exact KI]|]. destruct OK as [O1 O2]. destruct (step_rel i ts bs KI O1) as (t & S1 & R1).
    destruct (IH (ts ++ [t]) (bs ++ [cost i bs])) as (ts' & S2 & R2); [|exact O2|exists ts'; split; [econstructor; eassumption|exact R2]].
    destruct KI as [L1 KI]. split; [rewrite !app_length; cbn; lia|]. intros a x Ha. destruct (Nat.lt_ge_cases a (length bs)) as [Hl|Hl].
    - rewrite nth_error_app1 in Ha by lia. rewrite app_nth1 by exact Hl. apply KI. exact Ha.
    - rewrite nth_error_app2 in Ha by lia. destruct (a - length ts)%nat as [|y] eqn:E; [|destruct y; discriminate Ha]. injection Ha as <-. rewrite app_nth2 by exact Hl. replace (a - length bs)%nat with 0%nat by lia. exact R1.
  Qed.
  Lemma fresh_rel M mu eps cF id : (0 <= mu)%R -> (0 <= eps)%R -> (INR N * IZR (B * (1 + 2 * Z.of_nat N * T)) <= cF * S)%R -> In id P -> krel (kfresh N pp ps B T M mu eps id) (KB L mu (eps + cF)).
  Proof.
    intros Hm He HF HI. destruct HS as (S0 & S1 & S2). pose proof SP as SP0. unfold kfresh, krel. cbn [klev ksc kids kmu keps bl bmu berr]. set (F := B * (1 + 2 * Z.of_nat N * T)) in *.
    assert (F0 : (0 <= IZR F)%R) by (apply IZR_le; unfold F; apply Z.mul_nonneg_nonneg; [exact HB|]; assert (0 <= 2 * Z.of_nat N * T) by (apply Z.mul_nonneg_nonneg; lia); lia).
    assert (NF : (0 <= INR N * IZR F)%R) by (apply Rmult_le_pos; [apply pos_INR|exact F0]).
    assert (X : (0 <= INR N * IZR F / B2R ps <= cF)%R).
    { rewrite S0. split; [apply Rmult_le_pos; [exact NF|left; apply Rinv_0_lt_compat; exact SP0]|]. apply Rmult_le_reg_r with S; [exact SP0|]. unfold Rdiv. rewrite Rmult_assoc, Rinv_l, Rmult_1_r by lra. exact HF. }
    split; [reflexivity|]. split; [lia|]. split; [reflexivity|]. split; [exact Hm|]. split; [lra|]. split; [split; [exact S1|rewrite S0; exact SP0]|]. split.
    - rewrite S0. replace (S / S - 1)%R with 0%R by (field; lra). rewrite Rabs_R0. apply dr_small.
    - split; [repeat constructor; cbn; tauto|intros x [<-|[]]; exact HI].
  Qed.
End Dominate.

(** bounds on coefficients need not be given: there are finitely many inputs *)
Lemma kinput_mono {N} pp sc B T M M' mu eps (x : kinput N) : M <= M' -> kinput_ok pp sc B T M mu eps x -> kinput_ok pp sc B T M' mu eps x.
Proof.
  intros H ((W & PL & X & HX & BX & NX) & R). split; [|exact R]. split; [exact W|]. split; [exact PL|]. exists X. split; [exact HX|]. split; [|exact NX]. intros i Hi. specialize (BX i Hi). lia.
Qed.
Lemma kinput_max {N} pp sc B T mu eps (ins : list (kinput N)) : (forall x, In x ins -> exists M, kinput_ok pp sc B T M mu eps x) -> exists M, forall x, In x ins -> kinput_ok pp sc B T M mu eps x.
Proof.
  induction ins as [|y l IH]; intros H; [exists 0; intros x []|]. destruct IH as [M HM]; [intros x Hx; apply H; right; exact Hx|]. destruct (H y (or_introl eq_refl)) as [M' HM'].
  exists (Z.max M M'). intros x [<-|Hx]; [apply (kinput_mono pp sc B T M'); [lia|exact HM']|apply (kinput_mono pp sc B T M); [lia|apply HM; exact Hx]].
Qed.

(** the numbers a parameter set must meet: scale S = 2^k, moduli within eta of the scale, constants of the rule large enough for K parties, errors up to B, secrets up to T *)
Record knumbers (N : nat) (pp : rparams) (ps : f64) (B T : Z) (K : nat) (S eta e1 cA cF cR cM cD : RR) (MN : Z) (cap : nat -> RR) : Prop := {
  kn_B : 0 <= B; kn_T : 0 <= T;
  kn_S : B2R ps = S /\ is_finite ps = true /\ (1024 <= S <= IZR (2 ^ 62))%R;
  kn_H : is_finite (f_div ps (f_of_int 2)) = true /\ B2R (f_div ps (f_of_int 2)) = (S / 2)%R;
  kn_Q : forall j, (1 <= j <= maxLevel pp)%nat -> (Rabs (IZR (mq (Qi pp j)) / S - 1) <= eta)%R;
  kn_Q0 : (99 / 100 * S <= IZR (mq (Qi pp 0)))%R;
  kn_eta : (0 <= eta <= / 2048)%R;
  kn_e1 : let d := (IZR (2 ^ Z.of_nat (maxLevel pp - 0) - 1) * e1)%R in (0 <= e1 /\ d <= / 1024 /\ d * d + 101 / 100 * (eta + / IZR (2 ^ 48)) <= e1 <= / 1024)%R;
  kn_A : (3 * e1 <= cA)%R;
  kn_D : (/ IZR (2 ^ 48) <= cD)%R;
  kn_F : (INR N * IZR (B * (1 + 2 * Z.of_nat N * T)) <= cF * S)%R;
  kn_R : forall l, (l <= maxLevel pp)%nat -> (INR N * IZR (Z.log2_up (Z.of_nat N) * (Z.of_nat K * switch_noise N pp l (dig_bound pp l) B T)) <= cR * (99 / 100 * S))%R;
  kn_MN : forall l0 l1, (l0 <= maxLevel pp)%nat -> (l1 <= maxLevel pp)%nat -> mul_noise N pp (Nat.min l0 l1) K K (dig_bound pp l0) (dig_bound pp l1) B T <= MN;
  kn_M : (INR N * (2 * IZR MN + 101 / 100 * S * IZR (1 + Z.of_nat K * (Z.of_nat N * T))) <= 2 * (98 / 100) * (S * S) * cM)%R;
  kn_cap : forall l, (l <= maxLevel pp)%nat -> (2 * (101 / 100 * S) * cap l < IZR (qlev pp l))%R }.

Lemma plain_choice {N} pp ps (pts : list (poly N * f64)) zpts (pb : list (RR * RR)) :
  (forall p, (p < length pb)%nat -> (0 <= fst (nth p pb (0, 0)) /\ 0 <= snd (nth p pb (0, 0)))%R /\ exists x M, nth_error pts p = Some x /\ kplainreg pp x (KP ps M (fst (nth p pb (0, 0)%R)) (snd (nth p pb (0, 0)%R))) (nth p zpts zslots)) ->
  exists pis : list kpinfo, (length pis = length pb /\ forall p q, nth_error pis p = Some q -> psc q = ps /\ (0 <= pmu q)%R /\ (0 <= peps q)%R /\ nth p pb (0, 0)%R = (pmu q, peps q)) /\
    forall p q, nth_error pis p = Some q -> exists x, nth_error pts p = Some x /\ kplainreg pp x q (nth p zpts zslots).
Proof.
  intros H. assert (X : forall n, (n <= length pb)%nat -> exists Ms : list Z, length Ms = n /\ forall p, (p < n)%nat -> exists x, nth_error pts p = Some x /\ kplainreg pp x (KP ps (nth p Ms 0) (fst (nth p pb (0, 0)%R)) (snd (nth p pb (0, 0)%R))) (nth p zpts zslots)).
  { induction n as [|n IH]; intros Hn; [exists nil; split; [reflexivity|intros p Hp; lia]|]. destruct IH as (Ms & L1 & H1); [lia|]. destruct (H n ltac:(lia)) as (_ & x & M & E & KR).
    exists (Ms ++ [M]). split; [rewrite app_length; cbn; lia|]. intros p Hp. destruct (Nat.eq_dec p n) as [->|NE]; [exists x; rewrite app_nth2, L1, Nat.sub_diag by lia; split; assumption|]. rewrite app_nth1 by lia. apply H1. lia. }
  destruct (X (length pb) (le_n _)) as (Ms & L1 & H1).
  set (f := fun p => KP ps (nth p Ms 0) (fst (nth p pb (0, 0)%R)) (snd (nth p pb (0, 0)%R))).
  assert (G : forall p q, nth_error (map f (seq 0 (length pb))) p = Some q -> (p < length pb)%nat /\ q = f p).
  { intros p q E. assert (Hp : (p < length pb)%nat) by (assert (Y : nth_error (map f (seq 0 (length pb))) p <> None) by congruence; apply nth_error_Some in Y; rewrite map_length, seq_length in Y; exact Y).
    split; [exact Hp|]. rewrite (map_nth_error f p (seq 0 (length pb)) (d := p)) in E; [congruence|]. rewrite (nth_error_nth' _ 0%nat) by (rewrite seq_length; exact Hp). rewrite seq_nth by exact Hp. reflexivity. }
  exists (map f (seq 0 (length pb))). split; [split; [rewrite map_length, seq_length; reflexivity|]|]; intros p q E; destruct (G p q E) as [Hp ->]; unfold f; cbn [psc pmu peps].
  - destruct (H p Hp) as ([A1 A2] & _). split; [reflexivity|]. split; [exact A1|]. split; [exact A2|]. apply surjective_pairing.
  - apply H1. exact Hp.
Qed.

(** the registers of a program that the rule allows are described by bounds the rule dominates *)
Lemma rule_steps {N} pp ps B T K S eta e1 cA cF cR cM cD MN cap mu eps (crs : crsT N) (P : list string) (pts : list (poly N * f64)) pb zpts (ins : list (kinput N)) prog a :
  wfp N pp -> knumbers N pp ps B T K S eta e1 cA cF cR cM cD MN cap -> (length P <= K)%nat ->
  (0 <= mu)%R -> (0 <= eps)%R -> (forall x, In x ins -> In (ki_id x) P /\ exists M, kinput_ok pp ps B T M mu eps x) ->
  (forall p, (p < length pb)%nat -> (0 <= fst (nth p pb (0, 0)) /\ 0 <= snd (nth p pb (0, 0)))%R /\ exists x M, nth_error pts p = Some x /\ kplainreg pp x (KP ps M (fst (nth p pb (0, 0)%R)) (snd (nth p pb (0, 0)%R))) (nth p zpts zslots)) ->
  let bs := map (fun _ => KB (maxLevel pp) mu (eps + cF)) ins in kokrun (maxLevel pp) cA cR cM cD pb prog bs -> (a < length ins + length prog)%nat ->
  let b := nth a (kcost_run (maxLevel pp) cA cR cM cD pb prog bs) (KB 0 0 0) in (bmu b + berr b <= cap (bl b))%R ->
  exists M pis ts' t, (forall x, In x ins -> kinput_ok pp ps B T M mu eps x) /\
    (forall p q, nth_error pis p = Some q -> exists x, nth_error pts p = Some x /\ kplainreg pp x q (nth p zpts zslots)) /\
    ksteps N pp ps crs B T pis (map (fun x => kfresh N pp ps B T M mu eps (ki_id x)) ins) prog ts' /\ nth_error ts' a = Some t /\ fits pp t /\
    fpos ps /\ klev t = bl b /\ fpos (ksc t) /\ (keps t <= berr b)%R.
Proof.
  intros WF [nB nT nS nH nQ nQ0 neta ne1 nA nD nF nR nMN nM ncap] HP Hmu Heps HI HPT bs OKR Ha b HCap.
  destruct (plain_choice pp ps pts zpts pb HPT) as (pis & HPI & HPK).
  destruct (kinput_max pp ps B T mu eps ins) as [M HM]; [intros x Hx; apply (HI x Hx)|].
  set (ts := map (fun x => kfresh N pp ps B T M mu eps (ki_id x)) ins).
  assert (I0 : kinv pp P S e1 ts bs).
  { split; [unfold ts, bs; rewrite !map_length; reflexivity|]. intros x t Hx. unfold ts in Hx. rewrite nth_error_map in Hx. destruct (nth_error ins x) as [y|] eqn:E; [|discriminate Hx]. injection Hx as <-.
    unfold bs. rewrite (nth_error_nth (map (fun _ => KB (maxLevel pp) mu (eps + cF)) ins) x (KB 0 0 0) (x := KB (maxLevel pp) mu (eps + cF))) by (rewrite nth_error_map, E; reflexivity).
    eapply fresh_rel; eauto. apply (HI y). apply (nth_error_In _ _ E). }
  destruct (run_rel pp WF ps crs B T nB nT K P HP S eta e1 cA cR cM cD MN nS nH nQ nQ0 neta ne1 nA nD nR nMN nM pis pb HPI prog ts bs I0 OKR) as (ts' & STP & IL & IV).
  assert (LN : length ts' = (length ins + length prog)%nat).
  { rewrite IL. unfold bs. clear. assert (X : forall prog bs, length (kcost_run (maxLevel pp) cA cR cM cD pb prog bs) = (length bs + length prog)%nat) by (induction prog0 as [|i p IH]; intros l; cbn [kcost_run fold_left length]; [lia|unfold kcost_run in IH; rewrite IH, app_length; cbn; lia]). rewrite X, map_length. reflexivity. }
  destruct (nth_error ts' a) as [t|] eqn:Et; [|apply nth_error_None in Et; lia].
  pose proof (IV a t Et) as KR. fold b in KR.
  assert (CL : (99 / 100 * S <= B2R (ksc t) <= 101 / 100 * S)%R) by (apply (close pp ps K P HP S eta e1 nS ne1 _ (klev t)); apply KR).
  destruct KR as (K1 & K2 & K3 & K4 & K5 & K6 & K7 & K8 & K9).
  assert (FT : fits pp t).
  { right. pose proof (ncap (klev t) K2) as C. rewrite K1 in C at 1. rewrite K3. eapply Rle_lt_trans; [|exact C].
    assert (Z0 : (0 <= bmu b + keps t <= cap (bl b))%R) by (rewrite <- K3; rewrite <- K3 in HCap; lra). rewrite Rmult_assoc. apply Rmult_le_compat_l; [lra|]. destruct nS as (_ & _ & S2). apply Rmult_le_compat; lra. }
  exists M, pis, ts', t. split; [exact HM|]. split; [exact HPK|]. split; [exact STP|]. split; [exact Et|]. split; [exact FT|]. split; [destruct nS as (S0 & S1 & S2); split; [exact S1|rewrite S0; lra]|].
  split; [exact K1|]. split; [exact K6|lra].
Qed.

(** a program that the rule allows runs, and every register whose slots and error fit decrypts within the error of the rule *)
Theorem C52_rule : forall N pp ps B T K S eta e1 cA cF cR cM cD MN cap mu eps crs (rs : rlkset N) (rk : rotset N) (ck : conjset N) sks (pk : string -> publicKey N) (s r : string -> R N) (P : list string) rots
  (w : nat -> nat -> IdSetModel.order) (oe : nat -> list string -> list string) (o : IdSetModel.order) (pt : poly N) pts pb zpts (ins : list (kinput N)) prog st a,
  wfp N pp -> knumbers N pp ps B T K S eta e1 cA cF cR cM cD MN cap -> small_ok pp B -> small_ok pp T ->
  (forall n m, order_ok (w n m)) -> (forall n, ord1_ok (oe n)) -> order_ok o -> pool_ok pp st ->
  (forall i, In i ([0; -1; -2] ++ rots) -> exists c, mget Z.eq_dec crs i = Some c /\ crs_ok pp c) ->
  mwf sks -> (forall id k, mget seq_dec sks id = Some k -> In id P) -> (length P <= K)%nat ->
  (forall id, In id P -> id <> id0 /\ kgenerated pp B T crs rs rk ck sks rots pk id (s id) (r id)) ->
  (0 <= mu)%R -> (0 <= eps)%R -> (forall x, In x ins -> In (ki_id x) P /\ exists M, kinput_ok pp ps B T M mu eps x) ->
  (forall p, (p < length pb)%nat -> (0 <= fst (nth p pb (0, 0)) /\ 0 <= snd (nth p pb (0, 0)))%R /\ exists x M, nth_error pts p = Some x /\ kplainreg pp x (KP ps M (fst (nth p pb (0, 0)%R)) (snd (nth p pb (0, 0)%R))) (nth p zpts zslots)) ->
  krots crs prog rots -> let bs := map (fun _ => KB (maxLevel pp) mu (eps + cF)) ins in kokrun (maxLevel pp) cA cR cM cD pb prog bs ->
  plevel pt = maxLevel pp -> (a < length ins + length prog)%nat ->
  let b := nth a (kcost_run (maxLevel pp) cA cR cM cD pb prog bs) (KB 0 0 0) in (bmu b + berr b <= cap (bl b))%R ->
  exists st' cs c p, ksession pp ps crs rs rk ck pts pk w oe ins prog st = Ok (st', cs) /\ nth_error cs a = Some c /\ fpos (csc c) /\ Decrypt pp o (cv c) sks pt = Ok p /\ plevel p = bl b /\
    exists X, centred pp (bl b) (prows p) X /\ (forall Y, centred pp (bl b) (prows p) Y -> Y = X) /\
      forall j, (j < N / 2)%nat -> (cabs (csub (cscale (/ B2R (csc c)) (ckks_slot X j)) (nth a (kplain_run N zpts prog (map ki_z ins)) zslots j)) <= berr b)%R.
Proof.
  intros N pp ps B T K S eta e1 cA cF cR cM cD MN cap mu eps crs rs rk ck sks pk s r P rots w oe o pt pts pb zpts ins prog st a WF NB SB ST O OE OD PO HC MW HSK HP HG Hmu Heps HI HPT HR bs OKR PL Ha b HCap.
  destruct (rule_steps pp ps B T K S eta e1 cA cF cR cM cD MN cap mu eps crs P pts pb zpts ins prog a) as (M & pis & ts' & t & HM & HPK & STP & Et & FT & FP & K1 & K6 & KE); trivial. fold bs in K1, KE. fold b in K1, KE.
  destruct (C48_end_to_end N pp ps B T M mu eps crs rs rk ck sks pk s r P rots w oe o pt pts pis zpts ins prog st ts' a t) as (st' & cs & c & p & A1 & A2 & A3 & A4 & A5 & X & A6 & A7 & A8); trivial.
  - intros x Hx. split; [apply (HI x Hx)|apply HM; exact Hx].
  - rewrite <- K1. exists st', cs, c, p. split; [exact A1|]. split; [exact A2|]. split; [rewrite A3; exact K6|]. split; [exact A4|]. split; [exact A5|]. exists X. split; [exact A6|]. split; [exact A7|]. intros j Hj. eapply Rle_trans; [apply A8; exact Hj|exact KE].
Qed.
Print Assumptions C52_rule.
