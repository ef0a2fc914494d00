(** C52: the CKKS parameter sets of the repository work, with an explicit precision rule (CkksBudget.v: kcost, kokb). *)
From Flocq Require Import Core BinarySingleNaN.
From Coq Require Import Znumtheory Setoid Morphisms Reals Lra.
From Verif Require Import Base IdSetModel KeySetModel NumTheory Negacyclic Ntt Word BasisExt BasisExtProofs DecompProofs BasisSpec Rows RlweModel KeyGenModel SchemeSpec ExtProd ExtProps Galois KeyGenProofs CtModel CtSpec CtProofs EncDecProofs EncMsgModel KeySwitchModel Digits KsLoops RotProofs ConjProofs MulProofs PropsEnc PropsKeySwitch PropsRotate FloatModel CkksFloat CkksModel FloatProofs CkksFloatProofs CkksProofs CkksRescale PropsCkks PropsRescale Slots PropsSlots CkksSlots CkksCircuit PropsCkksCircuit PropsCkksScale PropsIndex Shipped BfvModel BfvConv PropsBfvCircuit Instance BfvCross PropsShipped CkksBudget SlotNorm SlotEncode.
Open Scope Z_scope.

(** *** the CRS of NewParameters, and a complete set of keys *)
Section Setup.
  Context {N : nat} (pp : rparams) (WF : wfp N pp) (logN : nat) (EN : N = (2 ^ logN)%nat) (HL : (0 < logN)%nat).
  Variable u : Z -> nat -> polyQP N.
  Hypothesis HU : forall i j, (j < beta pp (maxLevel pp))%nat -> wordsQP pp (u i j).
  Notation crs := (NewCRS pp logN u).

  Lemma kcrs_in i : In i (keys crs) <-> In i [0; -1; -2; -3; -4] \/ In i (defaults logN).
  Proof. destruct (C04_crs_indices N pp logN u i HL) as [X _]. unfold defaults. rewrite <- (default_index_pow logN i HL). exact X. Qed.
  Lemma kcrs_entries i : In i [0; -1; -2; -3; -4] \/ In i (defaults logN) -> mget Z.eq_dec crs i = Some (crs_entry pp (u i)) /\ crs_ok pp (crs_entry pp (u i)).
  Proof.
    intros H. apply kcrs_in in H. destruct (C04_crs_indices N pp logN u i HL) as [_ X]. split; [apply X; exact H|]. apply (crs_entry_ok pp WF). intros k Hk. apply HU. exact Hk.
  Qed.
  Lemma kcrs_setup i : In i ([0; -1; -2] ++ defaults logN) -> exists c, mget Z.eq_dec crs i = Some c /\ crs_ok pp c.
  Proof. intros H. exists (crs_entry pp (u i)). apply kcrs_entries. apply in_app_or in H. cbn [In] in *. tauto. Qed.
  (** every rotation amount is served by the default keys *)
  Lemma kcrs_rots prog : krots crs prog (defaults logN).
  Proof.
    intros i k j _ q NZ U. pose proof (pow_half logN HL) as PH. assert (HN : 0 < Z.of_nat (N / 2)) by (rewrite EN, PH; apply Z.pow_pos_nonneg; lia).
    pose proof (Z.mod_pos_bound k (Z.of_nat (N / 2)) HN) as MB. fold q in MB. destruct U as [[A ->]|(A & t & T1 & T2 & ->)].
    - apply (mget_In_keys Z.eq_dec) in A. apply kcrs_in in A. destruct A as [A|A]; [|exact A]. cbn [In] in A. lia.
    - apply (default_index_pow logN (2 ^ t) HL). rewrite <- EN. exists t. split; [exact T1|]. split; [reflexivity|]. destruct (Z.le_gt_cases (2 ^ t) q) as [L|G]; [lia|]. exfalso.
      rewrite Z.bits_above_log2 in T2; [discriminate|lia|]. apply Z.log2_lt_pow2; lia.
  Qed.

  (** whatever secrets and errors within the bounds the samplers deliver, every party can generate all its keys *)
  Variables (B T : Z) (HB : small_ok pp B) (HT : small_ok pp T) (s r e : string -> R N).
  Hypotheses (Hs : forall id, bnd (s id) T) (Hr : forall id, bnd (r id) T) (He : forall id, bnd (e id) B).
  Notation smp id := (rows_of pp (e id)).
  Notation sk id := (genSecretKeyFromSampler pp id (rows_of pp (s id))). Notation skr id := (genSecretKeyFromSampler pp id (rows_of pp (r id))).
  Lemma ksetup P : exists (rs : rlkset N) (rk : rotset N) (ck : conjset N) sks pk, mwf sks /\ (forall id k, mget seq_dec sks id = Some k -> In id P) /\
    forall id, In id P -> kgenerated pp B T crs rs rk ck sks (defaults logN) pk id (s id) (r id).
  Proof.
    assert (SE : forall id, is_sample pp B (e id) (smp id)) by (intros id; apply (rows_of_sample pp N B (e id) WF (He id))).
    assert (SS : forall id, is_sample pp T (s id) (rows_of pp (s id))) by (intros id; apply (rows_of_sample pp N T (s id) WF (Hs id))).
    assert (SR : forall id, is_sample pp T (r id) (rows_of pp (r id))) by (intros id; apply (rows_of_sample pp N T (r id) WF (Hr id))).
    assert (SV : forall id, mval pp (maxLevel pp) (sk_val (sk id)) (fun _ => s id)) by (intros id; apply (genSecretKey_ok pp WF T (s id) id _ HT (SS id))).
    assert (SRV : forall id, mval pp (maxLevel pp) (sk_val (skr id)) (fun _ => r id)) by (intros id; apply (genSecretKey_ok pp WF T (r id) id _ HT (SR id))).
    assert (CE : forall i, In i [0; -1; -2; -3] \/ In i (defaults logN) -> mget Z.eq_dec crs i = Some (crs_entry pp (u i)) /\ crs_ok pp (crs_entry pp (u i))) by (intros i Hi; apply kcrs_entries; cbn [In] in *; tauto).
    assert (HPK : forall id, exists k, GenPublicKey pp crs (sk id) (smp id) = Ok k).
    { intros id. destruct (CE 0) as [G C]; [left; cbn; tauto|]. destruct (GenPublicKey_ok pp WF B (e id) (smp id) crs _ (sk id) (s id) HB (SE id) (SV id) G C) as (k & A & _). exists k. exact A. }
    assert (HRL : forall id, exists k, GenRelinearizationKey pp crs (sk id) (skr id) (fun _ => smp id) (fun _ => smp id) (fun _ => smp id) = Ok k).
    { intros id. destruct (CE 0) as [G1 C1]; [left; cbn; tauto|]. destruct (CE (-1)) as [G3 C3]; [left; cbn; tauto|].
      destruct (GenRelinearizationKey_ok pp WF B (fun _ => e id) (fun _ => e id) (fun _ => e id) (fun _ => smp id) (fun _ => smp id) (fun _ => smp id) crs (crs_entry pp (u 0)) (crs_entry pp (u (-1))) (sk id) (skr id) (s id) (r id) HB) as (k & A & _); trivial.
      - intros k _. split; [apply SE|]. split; apply SE.
      - exists k. exact A. }
    assert (HRT : forall id i, In i (defaults logN) -> exists k, GenRotationKey pp crs i (sk id) (fun _ => smp id) = Ok k).
    { intros id i Hi. destruct (CE i (or_intror Hi)) as [G C]. destruct (GenRotationKey_ok pp WF B (fun _ => e id) (fun _ => smp id) crs i (crs_entry pp (u i)) i (crs_entry pp (u i)) (sk id) (s id) HB (fun _ _ => SE id) (SV id) G) as (k & A & _); [|trivial..|exists k; exact A].
      unfold defaults in Hi. apply in_map_iff in Hi. destruct Hi as (t & <- & _). destruct (Z.ltb_spec (2 ^ Z.of_nat t) 0) as [L|_]; [|reflexivity]. pose proof (Z.pow_nonneg 2 (Z.of_nat t) ltac:(lia)). lia. }
    assert (HCJ : forall id, exists k, GenConjugationKey pp crs (sk id) (fun _ => smp id) = Ok k).
    { intros id. destruct (CE (-2)) as [G C]; [left; cbn; tauto|]. destruct (GenConjugationKey_ok pp WF B (fun _ => e id) (fun _ => smp id) crs _ (sk id) (s id) HB (fun _ _ => SE id) (SV id) G C) as (k & A & _). exists k. exact A. }
    set (rl := fun id => match GenRelinearizationKey pp crs (sk id) (skr id) (fun _ => smp id) (fun _ => smp id) (fun _ => smp id) with Ok k => k | Panic => RLK id nil nil nil end).
    set (rt := fun id i => match GenRotationKey pp crs i (sk id) (fun _ => smp id) with Ok k => k | Panic => RTK id i nil end).
    set (cj := fun id => match GenConjugationKey pp crs (sk id) (fun _ => smp id) with Ok k => k | Panic => CJK id nil end).
    set (pk := fun id => match GenPublicKey pp crs (sk id) (smp id) with Ok k => k | Panic => PK id dQP dQP end).
    set (names := nodup string_dec P).
    assert (GET : forall (V : Type) (f : string -> V) id, mget seq_dec (map (fun x => (x, f x)) names) id = if in_dec string_dec id P then Some (f id) else None).
    { intros V f id. assert (X : forall l, mget seq_dec (map (fun x => (x, f x)) l) id = if in_dec string_dec id l then Some (f id) else None).
      { induction l as [|y l IH]; [reflexivity|]. cbn [map mget]. destruct (seq_dec id y) as [->|NE]; [destruct (in_dec string_dec y (y :: l)) as [|NI]; [reflexivity|exfalso; apply NI; left; reflexivity]|].
        rewrite IH. destruct (in_dec string_dec id l) as [I|I]; destruct (in_dec string_dec id (y :: l)) as [J|J]; try reflexivity; [exfalso; apply J; right; exact I|]. destruct J as [J|J]; [congruence|contradiction]. }
      rewrite X. destruct (in_dec string_dec id names) as [I|I]; destruct (in_dec string_dec id P) as [J|J]; try reflexivity; exfalso; unfold names in I; rewrite nodup_In in I; contradiction. }
    exists (map (fun x => (x, rl x)) names), (map (fun x => (x, map (fun i => (i, rt x i)) (defaults logN))) names), (map (fun x => (x, cj x)) names), (map (fun x => (x, sk x)) names), pk.
    split; [|split].
    - unfold mwf, keys. rewrite map_map. cbn [fst]. rewrite map_id. apply NoDup_nodup.
    - intros id k H. rewrite (GET _ (fun x => sk x)) in H. destruct (in_dec string_dec id P) as [I|I]; [exact I|discriminate H].
    - intros id Hid. exists (rows_of pp (s id)), (rows_of pp (r id)), (fun _ => smp id), (fun _ => smp id), (fun _ => smp id), (smp id), (fun _ => e id), (fun _ => e id), (fun _ => e id), (e id).
      split; [apply SS|]. split; [apply SR|]. split; [apply SE|]. split; [intros k _; split; [apply SE|]; split; apply SE|]. cbv zeta. split; [|split; [|split; [|split]]].
      + rewrite (GET _ (fun x => sk x)). destruct (in_dec string_dec id P) as [I|I]; [reflexivity|contradiction].
      + destruct (HPK id) as [k A]. unfold pk. rewrite A. reflexivity.
      + destruct (HRL id) as [k A]. unfold rlk_get. rewrite (GET _ rl). destruct (in_dec string_dec id P) as [I|I]; [|contradiction]. unfold rl. rewrite A. reflexivity.
      + intros i Hi. exists (fun _ => smp id), (fun _ => e id). split; [intros j _; apply SE|]. destruct (HRT id i Hi) as [k A]. unfold rk_get. rewrite (GET _ (fun x => map (fun i => (i, rt x i)) (defaults logN))). destruct (in_dec string_dec id P) as [I|I]; [|contradiction].
        assert (Y : mget Z.eq_dec (map (fun i => (i, rt id i)) (defaults logN)) i = Some (rt id i)).
        { clear - Hi. induction (defaults logN) as [|y l IH]; [destruct Hi|]. cbn [map mget]. destruct (Z.eq_dec i y) as [->|NE]; [reflexivity|]. apply IH. destruct Hi as [Hi|Hi]; [congruence|exact Hi]. }
        rewrite Y. unfold rt. rewrite A. reflexivity.
      + exists (fun _ => smp id), (fun _ => e id). split; [intros j _; apply SE|]. destruct (HCJ id) as [k A]. unfold ks_get. rewrite (GET _ cj). destruct (in_dec string_dec id P) as [I|I]; [|contradiction]. unfold cj. rewrite A. reflexivity.
  Qed.
End Setup.

(** *** numbers *)
Lemma float_pow (k : Z) : 10 <= k <= 62 -> let ps := f_of_int (2 ^ k) in
  (B2R ps = IZR (2 ^ k) /\ is_finite ps = true /\ (1024 <= IZR (2 ^ k) <= IZR (2 ^ 62))%R) /\ is_finite (f_div ps (f_of_int 2)) = true /\ B2R (f_div ps (f_of_int 2)) = (IZR (2 ^ k) / 2)%R.
Proof.
  intros Hk ps. assert (P1 : 2 ^ 10 <= 2 ^ k) by (apply Z.pow_le_mono_r; lia). assert (P2 : 2 ^ k <= 2 ^ 62) by (apply Z.pow_le_mono_r; lia).
  assert (FM : forall j, 0 <= j -> generic_format radix2 (FLT_exp (-1074) 53) (IZR (2 ^ j))).
  { intros j Hj. change (2 ^ j) with (Zpower radix2 j). rewrite IZR_Zpower by lia. apply generic_format_bpow. unfold FLT_exp. lia. }
  destruct (f_of_int_ok (2 ^ k)) as [A1 A2]; [change (2 ^ 62) with 4611686018427387904 in P2; lia|]. rewrite (rnd_fmt (IZR (2 ^ k)) (FM k ltac:(lia))) in A1. fold ps in A1, A2.
  destruct (f_of_int_ok 2) as [B1 B2]; [lia|]. rewrite (rnd_fmt 2%R (FM 1 ltac:(lia))) in B1.
  assert (R1 : (1024 <= IZR (2 ^ k) <= IZR (2 ^ 62))%R) by (split; apply IZR_le; assumption).
  assert (HV : (IZR (2 ^ k) / 2 = IZR (2 ^ (k - 1)))%R). { replace k with (Z.succ (k - 1)) at 1 by lia. rewrite Z.pow_succ_r, mult_IZR by lia. field. }
  destruct (f_div_ok' ps (f_of_int 2) A2) as [D1 D2].
  - rewrite B1. lra.
  - rewrite A1, B1. rewrite Rabs_right by lra. apply Rle_trans with (IZR (2 ^ 62)); [lra|]. unfold big. apply IZR_le. vm_compute. discriminate.
  - split; [split; [exact A1|split; [exact A2|exact R1]]|]. split; [exact D2|]. rewrite D1, A1, B1, HV. apply rnd_fmt. apply FM. lia.
Qed.
Lemma q_close (q s en ed : Z) : 0 < s -> 0 < ed -> Z.abs (q - s) * ed <= en * s -> (Rabs (IZR q / IZR s - 1) <= IZR en / IZR ed)%R.
Proof.
  intros HS HE H. assert (S0 : (0 < IZR s)%R) by (apply IZR_lt; exact HS). assert (E0 : (0 < IZR ed)%R) by (apply IZR_lt; exact HE).
  replace (IZR q / IZR s - 1)%R with (IZR (q - s) / IZR s)%R by (rewrite minus_IZR; field; lra). unfold Rdiv. rewrite Rabs_mult, (Rabs_right (/ IZR s)) by (apply Rle_ge, Rlt_le, Rinv_0_lt_compat; exact S0). rewrite <- abs_IZR.
  apply IZR_le in H. rewrite !mult_IZR in H. apply Rmult_le_reg_r with (IZR s * IZR ed)%R; [apply Rmult_lt_0_compat; assumption|].
  replace (IZR (Z.abs (q - s)) * / IZR s * (IZR s * IZR ed))%R with (IZR (Z.abs (q - s)) * IZR ed)%R by (field; lra). replace (IZR en * / IZR ed * (IZR s * IZR ed))%R with (IZR en * IZR s)%R by (field; lra). exact H.
Qed.
Definition switchZ (n : Z) (pp : rparams) (level : nat) (DB B T : Z) : Z := (Z.of_nat (beta pp level) * (n * B * DB) + slack (Pprod pp) + n * T * slack (Pprod pp)) / Pprod pp.
Definition mulZ (n : Z) (pp : rparams) (K : nat) (D b SW : Z) : Z :=
  (Z.of_nat K * (Z.of_nat K * (b * (n * (n * D * D) * (n * 1 * 19 + n * 1 * 19)))) + Z.of_nat K * (n * 1 * slack (Pprod pp)) + Z.of_nat K * (n * 1 * slack (Pprod pp))) / Pprod pp + Z.of_nat K * SW.
Lemma mulZ_le {N} pp level K D0 D1 D b SW : wfp N pp -> 0 <= D0 <= D -> 0 <= D1 <= D -> Z.of_nat (beta pp level) <= b -> switch_noise N pp level (dig_bound pp level) 19 1 <= SW ->
  mul_noise N pp level K K D0 D1 19 1 <= mulZ (Z.of_nat N) pp K D b SW.
Proof.
  intros WF [A0 A1] [B0 B1] HB HS. assert (PP : 0 < Pprod pp) by (apply (Pprod_pos pp WF)). pose proof (kslack_nn (Pprod pp) ltac:(lia)) as S3. pose proof (kswitch_nn pp level 19 1 WF ltac:(lia) ltac:(lia)) as SW0.
  assert (Z0 : 0 <= 1) by lia. assert (Z1 : 0 <= 19) by lia. unfold mul_noise, mulZ. kmono.
Qed.
(** all integer conditions of a set, decided by computation; n = N, s = scale, K = number of parties, SW and MN bounds of the key-switching noise *)
Definition checks (n : Z) (pp : rparams) (s : Z) (K : nat) (en ed SW D MN cap0 cap : Z) : bool :=
  let ls := seq 0 (S (maxLevel pp)) in
  forallb (fun j => Z.abs (mq (Qi pp j) - s) * ed <=? en * s) (seq 1 (maxLevel pp)) && (99 * s <=? 100 * mq (Qi pp 0)) &&
  forallb (fun l => switchZ n pp l (dig_bound pp l) 19 1 <=? SW) ls &&
  forallb (fun l => dig_bound pp l <=? D) ls && forallb (fun l => (beta pp l <=? S (maxLevel pp))%nat) ls && (mulZ n pp K D (Z.of_nat (S (maxLevel pp))) SW <=? MN) &&
  forallb (fun l => 202 * s * (if (l =? 0)%nat then cap0 else cap) <? 100 * qlev pp l) ls.
Lemma check_all (f : nat -> bool) a n l : forallb f (seq a n) = true -> (a <= l < a + n)%nat -> f l = true.
Proof. intros H Hl. rewrite forallb_forall in H. apply H. apply in_seq. exact Hl. Qed.
Lemma checks_ok N pp s K en ed SW D MN cap0 cap : wfp N pp -> checks (Z.of_nat N) pp s K en ed SW D MN cap0 cap = true -> 0 < s -> 0 < ed ->
  (forall j, (1 <= j <= maxLevel pp)%nat -> (Rabs (IZR (mq (Qi pp j)) / IZR s - 1) <= IZR en / IZR ed)%R) /\ (99 / 100 * IZR s <= IZR (mq (Qi pp 0)))%R /\
  (forall l, (l <= maxLevel pp)%nat -> switch_noise N pp l (dig_bound pp l) 19 1 <= SW) /\
  (forall l0 l1, (l0 <= maxLevel pp)%nat -> (l1 <= maxLevel pp)%nat -> mul_noise N pp (Nat.min l0 l1) K K (dig_bound pp l0) (dig_bound pp l1) 19 1 <= MN) /\
  (forall l, (l <= maxLevel pp)%nat -> (2 * (101 / 100 * IZR s) * IZR (if (l =? 0)%nat then cap0 else cap) < IZR (qlev pp l))%R).
Proof.
  intros WF H HS HE. unfold checks in H. apply andb_prop in H as [H H5]. apply andb_prop in H as [H H7]. apply andb_prop in H as [H H6]. apply andb_prop in H as [H H4]. apply andb_prop in H as [H H3]. apply andb_prop in H as [H1 H2]. split; [|split; [|split; [|split]]].
  - intros j Hj. apply q_close; [exact HS|exact HE|]. apply Z.leb_le. apply (check_all (fun j => Z.abs (mq (Qi pp j) - s) * ed <=? en * s) _ _ j H1). lia.
  - apply Z.leb_le in H2. apply IZR_le in H2. rewrite !mult_IZR in H2. lra.
  - intros l Hl. apply Z.leb_le. apply (check_all (fun l => switchZ (Z.of_nat N) pp l (dig_bound pp l) 19 1 <=? SW) _ _ l H3). lia.
  - intros l0 l1 Hl0 Hl1. apply Z.leb_le in H7. etransitivity; [|exact H7].
    assert (DB : forall l, (l <= maxLevel pp)%nat -> 0 <= dig_bound pp l <= D) by (intros l Hl; split; [apply kdig_nn|]; apply Z.leb_le; apply (check_all (fun l => dig_bound pp l <=? D) _ _ l H4); lia).
    apply (mulZ_le pp _ K _ _ D _ SW WF (DB l0 Hl0) (DB l1 Hl1)).
    + apply Nat2Z.inj_le. apply Nat.leb_le. apply (check_all (fun l => (beta pp l <=? S (maxLevel pp))%nat) _ _ (Nat.min l0 l1) H6). lia.
    + apply Z.leb_le. apply (check_all (fun l => switchZ (Z.of_nat N) pp l (dig_bound pp l) 19 1 <=? SW) _ _ (Nat.min l0 l1) H3). lia.
  - intros l Hl. apply (check_all (fun l => 202 * s * (if (l =? 0)%nat then cap0 else cap) <? 100 * qlev pp l) _ _ l) in H5; [|lia]. apply Z.ltb_lt in H5. apply IZR_lt in H5. rewrite !mult_IZR in H5. lra.
Qed.
Lemma check15 : checks 32768 ckks15 (2 ^ 54) 64 3 (5 * 2 ^ 29) 33000 (2 ^ 60) (2 ^ 69) 31 (2 ^ 40) = true. Proof. vm_compute. reflexivity. Qed.
Lemma check14 : checks 16384 ckks14 (2 ^ 52) 64 3 (4 * 2 ^ 29) 16500 (2 ^ 59) (2 ^ 60) 63 (2 ^ 40) = true. Proof. vm_compute. reflexivity. Qed.
Lemma checkcnn : checks 16384 cnn14 (2 ^ 47) 2 3 (4 * 2 ^ 23) 16500 (2 ^ 57 + 2 ^ 30) (9 * 2 ^ 69) 500 (2 ^ 40) = true. Proof. vm_compute. reflexivity. Qed.
(** 1 / 2^k *)
Definition half_pow (k : Z) : RR := (/ IZR (2 ^ k))%R.
Ltac reals := unfold half_pow in *; change (2 ^ 7) with 128 in *; change (2 ^ 13) with 8192 in *; change (2 ^ 14) with 16384 in *; change (2 ^ 15) with 32768 in *; change (2 ^ 16) with 65536 in *; change (2 ^ 18) with 262144 in *; change (2 ^ 20) with 1048576 in *; change (2 ^ 21) with 2097152 in *; change (2 ^ 23) with 8388608 in *; change (2 ^ 24) with 16777216 in *;
  change (2 ^ 27) with 134217728 in *; change (2 ^ 29) with 536870912 in *; change (2 ^ 40) with 1099511627776 in *; change (2 ^ 47) with 140737488355328 in *; change (2 ^ 48) with 281474976710656 in *; change (2 ^ 52) with 4503599627370496 in *; change (2 ^ 54) with 18014398509481984 in *;
  change (2 ^ 60) with 1152921504606846976 in *; change (2 ^ 69) with 590295810358705651712 in *; change (9 * 590295810358705651712) with 5312662293228350865408 in *.
(** what is left to show with real arithmetic; kr = number of parties, a bounds of switch_noise *)
Lemma numbers_ok N pp k K K0 en ed SW D MN cap0 cap (e1 cA cF cR cM cD : RR) : wfp N pp -> 10 <= k <= 62 -> (1 <= K <= K0)%nat -> 0 < ed ->
  checks (Z.of_nat N) pp (2 ^ k) K0 en ed SW D MN cap0 cap = true ->
  let S := IZR (2 ^ k) in let eta := (IZR en / IZR ed)%R in let d := (IZR (2 ^ Z.of_nat (maxLevel pp) - 1) * e1)%R in let n := IZR (Z.of_nat N) in let kr := INR K in
  (0 <= eta <= / 2048)%R -> (0 <= e1 /\ d <= / 1024 /\ d * d + 101 / 100 * (eta + / IZR (2 ^ 48)) <= e1 <= / 1024)%R -> (3 * e1 <= cA)%R -> (/ IZR (2 ^ 48) <= cD)%R ->
  (n * (19 * (1 + 2 * n)) <= cF * S)%R -> (n * (IZR (Z.log2_up (Z.of_nat N)) * (kr * IZR SW)) <= cR * (99 / 100 * S))%R -> (n * (2 * IZR MN + 101 / 100 * S * (1 + kr * n)) <= 2 * (98 / 100) * (S * S) * cM)%R ->
  knumbers N pp (f_of_int (2 ^ k)) 19 1 K S eta e1 cA cF cR cM cD MN (fun l => IZR (if (l =? 0)%nat then cap0 else cap)).
Proof.
  intros WF Hk HK HE CK S eta d n kr Heta He1 HA HD HF HR HM. destruct (checks_ok N pp (2 ^ k) K0 en ed SW D MN cap0 cap WF CK ltac:(apply Z.pow_pos_nonneg; lia) HE) as (C1 & C2 & C3 & C4 & C5).
  destruct (float_pow k Hk) as (F1 & F2). assert (EN : n = INR N) by (unfold n; symmetry; apply INR_IZR_INZ). clearbody n. constructor; trivial; try lia; rewrite <- ?EN.
  - cbv zeta. rewrite Nat.sub_0_r. exact He1.
  - replace (IZR (19 * (1 + 2 * Z.of_nat N * 1))) with (19 * (1 + 2 * n))%R; [exact HF|]. rewrite mult_IZR, plus_IZR, !mult_IZR, <- INR_IZR_INZ, <- EN. ring.
  - intros l Hl. eapply Rle_trans; [|exact HR]. apply Rmult_le_compat_l; [rewrite EN; apply pos_INR|]. rewrite !mult_IZR, <- INR_IZR_INZ. apply Rmult_le_compat_l; [apply IZR_le; apply Z.log2_up_nonneg|].
    apply Rmult_le_compat_l; [apply pos_INR|]. apply IZR_le. apply C3. exact Hl.
  - intros l0 l1 H0 H1. etransitivity; [|apply (C4 l0 l1 H0 H1)]. apply (kmul_mono pp); trivial; try lia; apply kdig_nn.
  - replace (IZR (1 + Z.of_nat K * (Z.of_nat N * 1))) with (1 + kr * n)%R; [exact HM|]. unfold kr. rewrite plus_IZR, !mult_IZR, <- !INR_IZR_INZ, <- EN. ring.
Qed.
Lemma numbers15 K : (1 <= K <= 64)%nat -> knumbers N15 ckks15 (f_of_int (2 ^ 54)) 19 1 K (IZR (2 ^ 54)) (3 / IZR (5 * 2 ^ 29)) (half_pow 29) (half_pow 27) (half_pow 18) (INR K * half_pow 20) ((INR K + 1) * half_pow 24) (half_pow 48) (2 ^ 69) (fun l => IZR (if (l =? 0)%nat then 31 else 2 ^ 40)).
Proof.
  intros HK. assert (KR : (1 <= INR K <= 64)%R) by (replace 1%R with (INR 1) by reflexivity; replace 64%R with (INR 64) by (cbn; ring); split; apply le_INR; lia).
  assert (CK := check15). rewrite <- N15_Z in CK. apply (numbers_ok N15 ckks15 54 K 64 3 (5 * 2 ^ 29) 33000 (2 ^ 60) (2 ^ 69) 31 (2 ^ 40)); trivial; try lia; try (apply C50_ckks_wf); change (maxLevel ckks15) with 13%nat; rewrite ?N15_Z; change (Z.log2_up 32768) with 15; change (2 ^ Z.of_nat 13 - 1) with 8191; set (kr := INR K) in *; rewrite ?mult_IZR; reals; repeat (split; [lra|]); lra.
Qed.
Lemma numbers14 K : (1 <= K <= 64)%nat -> knumbers N14 ckks14 (f_of_int (2 ^ 52)) 19 1 K (IZR (2 ^ 52)) (3 / IZR (4 * 2 ^ 29)) (half_pow 29) (half_pow 27) (half_pow 18) (INR K * half_pow 20) (INR K * half_pow 24) (half_pow 48) (2 ^ 60) (fun l => IZR (if (l =? 0)%nat then 63 else 2 ^ 40)).
Proof.
  intros HK. assert (KR : (1 <= INR K <= 64)%R) by (replace 1%R with (INR 1) by reflexivity; replace 64%R with (INR 64) by (cbn; ring); split; apply le_INR; lia).
  assert (CK := check14). rewrite <- N14_Z in CK. apply (numbers_ok N14 ckks14 52 K 64 3 (4 * 2 ^ 29) 16500 (2 ^ 59) (2 ^ 60) 63 (2 ^ 40)); trivial; try lia; try (apply C50_ckks_wf); change (maxLevel ckks14) with 5%nat; rewrite ?N14_Z; change (Z.log2_up 16384) with 14; change (2 ^ Z.of_nat 5 - 1) with 31; set (kr := INR K) in *; rewrite ?mult_IZR; reals; repeat (split; [lra|]); lra.
Qed.
Lemma numberscnn K : (1 <= K <= 2)%nat -> knumbers N14 cnn14 (f_of_int (2 ^ 47)) 19 1 K (IZR (2 ^ 47)) (3 / IZR (4 * 2 ^ 23)) (half_pow 23) (half_pow 21) (half_pow 13) (INR K * half_pow 15) (half_pow 7) (half_pow 48) (9 * 2 ^ 69) (fun l => IZR (if (l =? 0)%nat then 500 else 2 ^ 40)).
Proof.
  intros HK. assert (KR : (1 <= INR K <= 2)%R) by (replace 1%R with (INR 1) by reflexivity; replace 2%R with (INR 2) by (cbn; ring); split; apply le_INR; lia).
  assert (CK := checkcnn). rewrite <- N14_Z in CK. apply (numbers_ok N14 cnn14 47 K 2 3 (4 * 2 ^ 23) 16500 (2 ^ 57 + 2 ^ 30) (9 * 2 ^ 69) 500 (2 ^ 40)); trivial; try lia; try (apply C50_ckks_wf); change (maxLevel cnn14) with 6%nat; rewrite ?N14_Z; change (Z.log2_up 16384) with 14; change (2 ^ Z.of_nat 6 - 1) with 63; set (kr := INR K) in *; rewrite ?mult_IZR; reals; repeat (split; [lra|]); lra.
Qed.

Lemma small_ckks : (small_ok ckks15 19 /\ small_ok ckks15 1) /\ (small_ok ckks14 19 /\ small_ok ckks14 1) /\ (small_ok cnn14 19 /\ small_ok cnn14 1).
Proof. split; [|split]; (split; (split; [vm_compute; reflexivity|]; intros [|[|k]] Hk; [vm_compute; discriminate|vm_compute; discriminate|cbn in Hk; lia])). Qed.
Lemma betas : beta ckks15 (maxLevel ckks15) = 14%nat /\ beta ckks14 (maxLevel ckks14) = 6%nat /\ beta cnn14 (maxLevel cnn14) = 7%nat.
Proof. split; [|split]; vm_compute; reflexivity. Qed.

(** PN15QP880, default scale 2^54: up to 64 parties. Register costs: see [kcost]; a fresh encryption adds 2^-18 to the error of the encoding, a rotation or conjugation K 2^-20, a product (K + 1) 2^-24 and a
    relative 2^-48, a sum at level l (2^(13 - l) - 1) 2^-27 times the size of its operands (the scales of its operands may differ by that much). A register decrypts if slots and error stay below 31 at level 0, 2^40 at higher levels. *)
Theorem C52_ckks15 : forall (u : Z -> nat -> polyQP N15) (rs : rlkset N15) (rk : rotset N15) (ck : conjset N15) sks (pk : string -> publicKey N15) (s r : string -> R N15) (P : list string)
  (w : nat -> nat -> IdSetModel.order) (oe : nat -> list string -> list string) (o : IdSetModel.order) (pt : poly N15) pts (pb : list (RR * RR)) zpts (mu eps : RR) (ins : list (kinput N15)) prog st a,
  (forall i j, (j < 14)%nat -> wordsQP ckks15 (u i j)) -> let crs := NewCRS ckks15 15 u in let scale := f_of_int (2 ^ 54) in let K := length P in
  (forall n m, order_ok (w n m)) -> (forall n, ord1_ok (oe n)) -> order_ok o -> pool_ok ckks15 st -> plevel pt = 13%nat ->
  mwf sks -> (forall id k, mget seq_dec sks id = Some k -> In id P) -> (1 <= K <= 64)%nat ->
  (forall id, In id P -> id <> id0 /\ kgenerated ckks15 19 1 crs rs rk ck sks (defaults 15) pk id (s id) (r id)) ->
  (0 <= mu)%R -> (0 <= eps)%R -> (forall x, In x ins -> In (ki_id x) P /\ exists M, kinput_ok ckks15 scale 19 1 M mu eps x) ->
  (forall p, (p < length pb)%nat -> (0 <= fst (nth p pb (0, 0)) /\ 0 <= snd (nth p pb (0, 0)))%R /\
     exists x M, nth_error pts p = Some x /\ kplainreg ckks15 x (KP scale M (fst (nth p pb (0, 0)%R)) (snd (nth p pb (0, 0)%R))) (nth p zpts zslots)) ->
  let cA := half_pow 27 in let cR := (INR K * half_pow 20)%R in let cM := ((INR K + 1) * half_pow 24)%R in let cD := half_pow 48 in
  let bs := map (fun _ => KB 13 mu (eps + half_pow 18)) ins in kokrun 13 cA cR cM cD pb prog bs -> (a < length ins + length prog)%nat ->
  let b := nth a (kcost_run 13 cA cR cM cD pb prog bs) (KB 0 0 0) in (bmu b + berr b <= IZR (if (bl b =? 0)%nat then 31 else 2 ^ 40))%R ->
  exists st' cs c p, ksession ckks15 scale crs rs rk ck pts pk w oe ins prog st = Ok (st', cs) /\ nth_error cs a = Some c /\ fpos (csc c) /\ Decrypt ckks15 o (cv c) sks pt = Ok p /\ plevel p = bl b /\
    exists X, centred ckks15 (bl b) (prows p) X /\ (forall Y, centred ckks15 (bl b) (prows p) Y -> Y = X) /\
      forall j, (j < N15 / 2)%nat -> (cabs (csub (cscale (/ B2R (csc c)) (ckks_slot X j)) (nth a (kplain_run N15 zpts prog (map ki_z ins)) zslots j)) <= berr b)%R.
Proof.
  intros u rs rk ck sks pk s r P w oe o pt pts pb zpts mu eps ins prog st a HU crs scale K O OE OD PO PL MW HSK HK HG Hmu Heps HI HPT cA cR cM cD bs OKR Ha b HCap.
  destruct C50_ckks_wf as (WF & _). destruct small_ckks as ([S1 S2] & _). destruct betas as (BT & _).
  apply (C52_rule N15 ckks15 scale 19 1 K (IZR (2 ^ 54)) _ _ cA (half_pow 18) cR cM cD _ _ mu eps crs rs rk ck sks pk s r P (defaults 15) w oe o pt pts pb zpts ins prog st a WF (numbers15 K HK) S1 S2 O OE OD PO); trivial.
  - apply (kcrs_setup ckks15 WF 15 ltac:(lia) u). rewrite BT. exact HU.
  - apply (kcrs_rots ckks15 15 N15_pow ltac:(lia) u).
Qed.
Print Assumptions C52_ckks15.

(** PN14QP439, default scale 2^52 *)
Theorem C52_ckks14 : forall (u : Z -> nat -> polyQP N14) (rs : rlkset N14) (rk : rotset N14) (ck : conjset N14) sks (pk : string -> publicKey N14) (s r : string -> R N14) (P : list string)
  (w : nat -> nat -> IdSetModel.order) (oe : nat -> list string -> list string) (o : IdSetModel.order) (pt : poly N14) pts (pb : list (RR * RR)) zpts (mu eps : RR) (ins : list (kinput N14)) prog st a,
  (forall i j, (j < 6)%nat -> wordsQP ckks14 (u i j)) -> let crs := NewCRS ckks14 14 u in let scale := f_of_int (2 ^ 52) in let K := length P in
  (forall n m, order_ok (w n m)) -> (forall n, ord1_ok (oe n)) -> order_ok o -> pool_ok ckks14 st -> plevel pt = 5%nat ->
  mwf sks -> (forall id k, mget seq_dec sks id = Some k -> In id P) -> (1 <= K <= 64)%nat ->
  (forall id, In id P -> id <> id0 /\ kgenerated ckks14 19 1 crs rs rk ck sks (defaults 14) pk id (s id) (r id)) ->
  (0 <= mu)%R -> (0 <= eps)%R -> (forall x, In x ins -> In (ki_id x) P /\ exists M, kinput_ok ckks14 scale 19 1 M mu eps x) ->
  (forall p, (p < length pb)%nat -> (0 <= fst (nth p pb (0, 0)) /\ 0 <= snd (nth p pb (0, 0)))%R /\
     exists x M, nth_error pts p = Some x /\ kplainreg ckks14 x (KP scale M (fst (nth p pb (0, 0)%R)) (snd (nth p pb (0, 0)%R))) (nth p zpts zslots)) ->
  let cA := half_pow 27 in let cR := (INR K * half_pow 20)%R in let cM := (INR K * half_pow 24)%R in let cD := half_pow 48 in
  let bs := map (fun _ => KB 5 mu (eps + half_pow 18)) ins in kokrun 5 cA cR cM cD pb prog bs -> (a < length ins + length prog)%nat ->
  let b := nth a (kcost_run 5 cA cR cM cD pb prog bs) (KB 0 0 0) in (bmu b + berr b <= IZR (if (bl b =? 0)%nat then 63 else 2 ^ 40))%R ->
  exists st' cs c p, ksession ckks14 scale crs rs rk ck pts pk w oe ins prog st = Ok (st', cs) /\ nth_error cs a = Some c /\ fpos (csc c) /\ Decrypt ckks14 o (cv c) sks pt = Ok p /\ plevel p = bl b /\
    exists X, centred ckks14 (bl b) (prows p) X /\ (forall Y, centred ckks14 (bl b) (prows p) Y -> Y = X) /\
      forall j, (j < N14 / 2)%nat -> (cabs (csub (cscale (/ B2R (csc c)) (ckks_slot X j)) (nth a (kplain_run N14 zpts prog (map ki_z ins)) zslots j)) <= berr b)%R.
Proof.
  intros u rs rk ck sks pk s r P w oe o pt pts pb zpts mu eps ins prog st a HU crs scale K O OE OD PO PL MW HSK HK HG Hmu Heps HI HPT cA cR cM cD bs OKR Ha b HCap.
  destruct C50_ckks_wf as (_ & WF & _). destruct small_ckks as (_ & [S1 S2] & _). destruct betas as (_ & BT & _).
  apply (C52_rule N14 ckks14 scale 19 1 K (IZR (2 ^ 52)) _ _ cA (half_pow 18) cR cM cD _ _ mu eps crs rs rk ck sks pk s r P (defaults 14) w oe o pt pts pb zpts ins prog st a WF (numbers14 K HK) S1 S2 O OE OD PO); trivial.
  - apply (kcrs_setup ckks14 WF 14 ltac:(lia) u). rewrite BT. exact HU.
  - apply (kcrs_rots ckks14 14 N14_pow ltac:(lia) u).
Qed.
Print Assumptions C52_ckks14.

(** PN14QP433 of cnn/cnn_test.go, default scale 2^47, two parties *)
Theorem C52_cnn14 : forall (u : Z -> nat -> polyQP N14) (rs : rlkset N14) (rk : rotset N14) (ck : conjset N14) sks (pk : string -> publicKey N14) (s r : string -> R N14) (P : list string)
  (w : nat -> nat -> IdSetModel.order) (oe : nat -> list string -> list string) (o : IdSetModel.order) (pt : poly N14) pts (pb : list (RR * RR)) zpts (mu eps : RR) (ins : list (kinput N14)) prog st a,
  (forall i j, (j < 7)%nat -> wordsQP cnn14 (u i j)) -> let crs := NewCRS cnn14 14 u in let scale := f_of_int (2 ^ 47) in let K := length P in
  (forall n m, order_ok (w n m)) -> (forall n, ord1_ok (oe n)) -> order_ok o -> pool_ok cnn14 st -> plevel pt = 6%nat ->
  mwf sks -> (forall id k, mget seq_dec sks id = Some k -> In id P) -> (1 <= K <= 2)%nat ->
  (forall id, In id P -> id <> id0 /\ kgenerated cnn14 19 1 crs rs rk ck sks (defaults 14) pk id (s id) (r id)) ->
  (0 <= mu)%R -> (0 <= eps)%R -> (forall x, In x ins -> In (ki_id x) P /\ exists M, kinput_ok cnn14 scale 19 1 M mu eps x) ->
  (forall p, (p < length pb)%nat -> (0 <= fst (nth p pb (0, 0)) /\ 0 <= snd (nth p pb (0, 0)))%R /\
     exists x M, nth_error pts p = Some x /\ kplainreg cnn14 x (KP scale M (fst (nth p pb (0, 0)%R)) (snd (nth p pb (0, 0)%R))) (nth p zpts zslots)) ->
  let cA := half_pow 21 in let cR := (INR K * half_pow 15)%R in let cM := (half_pow 7)%R in let cD := half_pow 48 in
  let bs := map (fun _ => KB 6 mu (eps + half_pow 13)) ins in kokrun 6 cA cR cM cD pb prog bs -> (a < length ins + length prog)%nat ->
  let b := nth a (kcost_run 6 cA cR cM cD pb prog bs) (KB 0 0 0) in (bmu b + berr b <= IZR (if (bl b =? 0)%nat then 500 else 2 ^ 40))%R ->
  exists st' cs c p, ksession cnn14 scale crs rs rk ck pts pk w oe ins prog st = Ok (st', cs) /\ nth_error cs a = Some c /\ fpos (csc c) /\ Decrypt cnn14 o (cv c) sks pt = Ok p /\ plevel p = bl b /\
    exists X, centred cnn14 (bl b) (prows p) X /\ (forall Y, centred cnn14 (bl b) (prows p) Y -> Y = X) /\
      forall j, (j < N14 / 2)%nat -> (cabs (csub (cscale (/ B2R (csc c)) (ckks_slot X j)) (nth a (kplain_run N14 zpts prog (map ki_z ins)) zslots j)) <= berr b)%R.
Proof.
  intros u rs rk ck sks pk s r P w oe o pt pts pb zpts mu eps ins prog st a HU crs scale K O OE OD PO PL MW HSK HK HG Hmu Heps HI HPT cA cR cM cD bs OKR Ha b HCap.
  destruct C50_ckks_wf as (_ & _ & WF). destruct small_ckks as (_ & _ & [S1 S2]). destruct betas as (_ & _ & BT).
  apply (C52_rule N14 cnn14 scale 19 1 K (IZR (2 ^ 47)) _ _ cA (half_pow 13) cR cM cD _ _ mu eps crs rs rk ck sks pk s r P (defaults 14) w oe o pt pts pb zpts ins prog st a WF (numberscnn K HK) S1 S2 O OE OD PO); trivial.
  - apply (kcrs_setup cnn14 WF 14 ltac:(lia) u). rewrite BT. exact HU.
  - apply (kcrs_rots cnn14 14 N14_pow ltac:(lia) u).
Qed.
Print Assumptions C52_cnn14.

(** *** non-vacuity: every message has an encoding; the keys exist; the rule is met by real programs *)
Lemma encoding_wf {N} pp (X : R N) : wfp N pp -> let pt := Pol (rows_of pp X) false in
  wfplain pp pt /\ plevel pt = maxLevel pp /\ (forall j, (j <= maxLevel pp)%nat -> eqm (mq (Qi pp j)) (row (prows pt) j) X).
Proof.
  intros WF pt. pose proof (wf_Qpos _ _ WF) as QP. destruct (any_bnd X) as [C HC]. destruct (rows_of_sample pp N C X WF HC) as [_ SM].
  assert (LR : length (prows pt) = length (Qm pp)) by (unfold pt, rows_of; cbn [prows]; apply tab_length). split; [|split].
  - split; [rewrite LR; lia|]. intros j Hj. rewrite LR in Hj. apply SM. unfold maxLevel. lia.
  - unfold plevel. rewrite LR. reflexivity.
  - intros j Hj. apply SM. exact Hj.
Qed.
Lemma encoded_exists {N} pp sc (z : slots) mu : wfp N pp -> fpos sc -> (forall j, (j < N / 2)%nat -> (cabs (z j) <= mu)%R) -> exists M (pt : poly N), kencoded pp sc M mu (INR (N / 2) / B2R sc) z pt.
Proof.
  intros WF [_ SP] HM. pose proof (wf_N _ _ WF) as [N2 _]. destruct (C25_encoding_exists N (B2R sc) z mu (pow2N pp WF) N2 SP HM) as [X HX]. destruct (any_bnd X) as [M BX]. exists M, (Pol (rows_of pp X) false).
  destruct (encoding_wf pp X WF) as (W1 & W2 & W3). split; [exact W1|]. split; [exact W2|]. exists X. split; [exact W3|]. split; [exact BX|exact HX].
Qed.
Lemma plain_exists {N} pp sc (z : slots) mu : wfp N pp -> fpos sc -> (forall j, (j < N / 2)%nat -> (cabs (z j) <= mu)%R) -> exists M (x : poly N * f64), kplainreg pp x (KP sc M mu (INR (N / 2) / B2R sc)) z.
Proof.
  intros WF SC HM. pose proof (wf_N _ _ WF) as [N2 _]. destruct (C25_encoding_exists N (B2R sc) z mu (pow2N pp WF) N2 (proj2 SC) HM) as [X HX]. destruct (any_bnd X) as [M BX]. exists M, (Pol (rows_of pp X) false, sc).
  destruct (encoding_wf pp X WF) as ([W1 W1'] & W2 & W3). unfold kplainreg. cbn [fst snd psc pM pmu peps].
  assert (LR : length (rows_of pp X) = length (Qm pp)) by (unfold rows_of; apply tab_length). cbn [prows] in *. split; [exact LR|]. split; [intros j Hj; apply W1'; rewrite LR; exact Hj|]. split; [reflexivity|]. split; [exact SC|].
  exists X. split; [intros j Hj; apply W3; exact Hj|]. split; [exact BX|exact HX].
Qed.
Lemma NewEvaluator_pool_ok {N} pp : pool_ok pp (NewEvaluator pp : evalst N).
Proof.
  unfold pool_ok, NewEvaluator. cbn [ctxtPool polyQPool]. rewrite tab_length. split; [|reflexivity]. split; [|split; [left; reflexivity|]].
  - apply (mwf_mset seq_dec nil). constructor.
  - intros x [<-|[]]. split; [apply tab_length|reflexivity].
Qed.
(** for every list of parties, all CRS words, all ternary secrets and all errors up to 19: the keys of the hypotheses exist; a new evaluator is a legal state; every message has an input record and a plaintext that meet the
    hypotheses with eps = 2^14 / 2^54 *)
Theorem C52_nonvacuous : forall (u : Z -> nat -> polyQP N15) (P : list string) (s r e : string -> R N15), (forall i j, (j < 14)%nat -> wordsQP ckks15 (u i j)) ->
  (forall id, bnd (s id) 1) -> (forall id, bnd (r id) 1) -> (forall id, bnd (e id) 19) -> let scale := f_of_int (2 ^ 54) in
  (exists (rs : rlkset N15) (rk : rotset N15) (ck : conjset N15) sks pk, mwf sks /\ (forall id k, mget seq_dec sks id = Some k -> In id P) /\
    forall id, In id P -> kgenerated ckks15 19 1 (NewCRS ckks15 15 u) rs rk ck sks (defaults 15) pk id (s id) (r id)) /\
  pool_ok ckks15 (NewEvaluator ckks15 : evalst N15) /\
  (forall id z mu, (forall j, (j < N15 / 2)%nat -> (cabs (z j) <= mu)%R) -> exists M (x : kinput N15), ki_id x = id /\ ki_z x = z /\ kinput_ok ckks15 scale 19 1 M mu (INR (N15 / 2) / IZR (2 ^ 54)) x) /\
  (forall z mu, (forall j, (j < N15 / 2)%nat -> (cabs (z j) <= mu)%R) -> exists M (x : poly N15 * f64), kplainreg ckks15 x (KP scale M mu (INR (N15 / 2) / IZR (2 ^ 54))) z).
Proof.
  intros u P s r e HU Hs Hr He scale. destruct C50_ckks_wf as (WF & _). destruct small_ckks as ([S1 S2] & _). destruct betas as (BT & _).
  destruct (float_pow 54 ltac:(lia)) as ((F1 & F2 & F3) & _). fold scale in F1, F2. assert (FP : fpos scale) by (split; [exact F2|rewrite F1; lra]).
  split; [|split; [|split]].
  - apply (ksetup ckks15 WF 15 N15_pow ltac:(lia) u ltac:(rewrite BT; exact HU) 19 1 S1 S2 s r e Hs Hr He P).
  - apply NewEvaluator_pool_ok.
  - intros id z mu HM. destruct (encoded_exists ckks15 scale z mu WF FP HM) as (M & pt & HE). rewrite F1 in HE.
    assert (ST : is_sample ckks15 1 (s id) (rows_of ckks15 (s id))) by (apply (rows_of_sample ckks15 N15 1 (s id) WF (Hs id))).
    assert (SE : is_sample ckks15 19 (e id) (rows_of ckks15 (e id))) by (apply (rows_of_sample ckks15 N15 19 (e id) WF (He id))).
    exists M, (KIn N15 id z pt (rows_of ckks15 (s id)) (rows_of ckks15 (e id)) (rows_of ckks15 (e id))). split; [reflexivity|]. split; [reflexivity|]. split; [exact HE|]. exists (s id), (e id), (e id). split; [exact ST|]. split; exact SE.
  - intros z mu HM. rewrite <- F1. apply (plain_exists ckks15 scale z mu WF FP HM).
Qed.
Print Assumptions C52_nonvacuous.
(** a program on two inputs of two parties with slots up to 1: conjugation, product, rotation, sum of a rotated product with a conjugated input, square, drop of three levels. Its result has slots up to 4 and an error below 2^-13 *)
Definition kshipped_prog : list kinstr := [KConj 0; KMul 0 1; KRot 3 5; KAdd 4 2; KMul 5 5; KDrop 6 3].
Theorem C52_nonvacuous_prog : let cA := half_pow 27 in let cR := (INR 2 * half_pow 20)%R in let cM := ((INR 2 + 1) * half_pow 24)%R in let cD := half_pow 48 in let b0 := KB 13 1 (half_pow 40 + half_pow 18) in
  kokrun 13 cA cR cM cD nil kshipped_prog [b0; b0] /\
  let b := nth 7 (kcost_run 13 cA cR cM cD nil kshipped_prog [b0; b0]) (KB 0 0 0) in bl b = 8%nat /\ bmu b = 4%R /\ (berr b <= half_pow 13)%R /\ (bmu b + berr b <= IZR (if (bl b =? 0)%nat then 31 else 2 ^ 40))%R.
Proof.
  cbv zeta. split; [cbn; repeat split; lia|]. cbn [kcost_run kshipped_prog fold_left app kcost prule nth bl bmu berr Nat.min Nat.sub Z.of_nat Pos.of_succ_nat Z.sub Nat.eqb].
  change (2 ^ 1 - 1) with 1. change (INR 2) with 2%R. reals. split; [reflexivity|]. split; [lra|]. split; lra.
Qed.
Print Assumptions C52_nonvacuous_prog.
