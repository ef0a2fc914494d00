(** C29: multiplication by a constant (mkckks). *)
From Flocq Require Import Core BinarySingleNaN Plus_error.
From Coq Require Import Znumtheory Setoid Morphisms Reals Lra.
From Verif Require Import Base IdSetModel IdSetSpec IdSetProofs KeySetModel NumTheory Negacyclic Ntt Word BasisExt BasisExtProofs Rows RlweModel KeyGenModel SchemeSpec ExtProd ExtProps Galois KeyGenProofs Instance CtModel CtSpec CtProofs EncDecProofs PropsEnc KeySwitchModel Digits KsLoops RotProofs FloatModel CkksFloat CkksModel FloatProofs CkksFloatProofs CkksProofs CkksRescale PropsCkks.
Open Scope Z_scope.
Local Notation fexp64 := (SpecFloat.fexp 53 1024).

Lemma f_mul_one (x : f64) : f_mul x f_one = x.
Proof.
  destruct x as [s|s| |s m e H]; try (destruct s; reflexivity); [reflexivity|].
  destruct f_one_ok as [E1 F1]. set (x := B754_finite s m e H).
  pose proof (Bmult_correct 53 1024 eq_refl eq_refl mode_NE x f_one) as C. rewrite E1, Rmult_1_r in C.
  assert (RX : round radix2 (SpecFloat.fexp 53 1024) (round_mode mode_NE) (B2R x) = B2R x) by (apply round_generic; [apply valid_rnd_N|apply generic_format_B2R]).
  rewrite RX in C. rewrite Rlt_bool_true in C by apply abs_B2R_lt_emax. destruct C as (C1 & C2 & C3).
  assert (C2' : is_finite (f_mul x f_one) = true) by (unfold f_mul; rewrite C2; reflexivity).
  apply B2R_Bsign_inj; trivial. unfold f_mul. rewrite C3.
  - destruct s; reflexivity.
  - unfold f_mul in C2'. destruct (Bmult _ _ _); try discriminate; reflexivity.
Qed.

(** MultByConst with a real constant v at scale sc *)
Lemma mbc_apply {N} pp o (c0 out : ckct N) k (v sc : f64) n0 no : wfp N pp -> ord1_ok o -> (n0 < length (Qm pp))%nat -> (no < length (Qm pp))%nat ->
  wfct pp n0 false (cv c0) -> wfct pp no false (cv out) -> (forall x, In x (keys (cv out)) <-> In x (keys (cv c0))) ->
  getConstAndScale pp (Nat.min n0 no) k = (v, f_zero, sc) -> is_finite v = true -> is_finite sc = true -> (0 <= B2R sc)%R -> (Rabs (B2R sc * B2R v) <= big / 4)%R ->
  exists u, MultByConst pp o c0 k out = Ok (CK u (f_mul (csc c0) sc)) /\ wfct pp no false u /\ (forall x, In x (keys u) <-> In x (keys (cv c0))) /\
    forall s j, (j <= Nat.min n0 no)%nat -> eqm (mq (Qi pp j)) (phase pp s u j) (smul (supInt v sc) (phase pp s (cv c0) j)).
Proof.
  intros WF O H0 H1 W0 W1 KO GC Fv Fs S0 HB. set (level := Nat.min n0 no) in *.
  destruct (mbc_real pp WF level k v sc ltac:(lia) GC Fv Fs S0 HB) as (cs & C1 & C2).
  pose proof (MultByConst_ok pp o c0 out k n0 no O (wfct_shape pp _ _ W0) (wfct_shape pp _ _ W1) (fun x Hx => proj2 (KO x) Hx)) as X. cbn zeta in X. fold level in X.
  rewrite C1 in X. destruct X as (u & U1 & U2 & U3 & U4 & _). unfold mbcScale in U1. rewrite GC in U1. cbn [snd] in U1. exists u. split; [exact U1|].
  assert (KU : forall x, In x (keys u) <-> In x (keys (cv c0))) by (intros x; rewrite U3; apply KO).
  assert (HR : forall x j, In x (keys (cv c0)) -> (j <= level)%nat -> inr (Qi pp j) (hrow pp cs (cv c0) x j) /\ eqm (mq (Qi pp j)) (hrow pp cs (cv c0) x j) (mul (cst (supInt v sc)) (row (prows (comp (cv c0) x)) j))).
  { intros x j Hx Hj. apply (hrow_ok pp WF level); [lia|exact Hj|apply C2; exact Hj|]. destruct (wfct_comp pp _ _ _ _ W0 Hx) as (_ & _ & I). apply I. lia. }
  assert (RL : forall x j, In x (keys (cv c0)) -> row (prows (comp u x)) j = if (j <=? level)%nat then hrow pp cs (cv c0) x j else row (prows (comp (cv out) x)) j).
  { intros x j Hx. rewrite (U4 x Hx). cbn [prows]. unfold row. destruct (Nat.leb_spec j level).
    - rewrite app_nth1 by (rewrite tab_length; lia). fold (row (tab (S level) (hrow pp cs (cv c0) x)) j). apply row_tab. lia.
    - rewrite app_nth2 by (rewrite tab_length; lia). rewrite tab_length. rewrite <- (firstn_skipn (S level) (prows (comp (cv out) x))) at 2.
      destruct (wfct_comp pp _ _ _ _ W1 (proj2 (KO x) Hx)) as (L & _). rewrite app_nth2 by (rewrite firstn_length; lia). rewrite firstn_length. f_equal. lia. }
  assert (WU : wfct pp no false u).
  { apply wfct_intro; [apply U2|apply U2|]. intros x Hx. destruct (proj2 (proj2 U2) x Hx) as [L F]. split; [exact L|]. split; [exact F|]. intros j Hj. apply KU in Hx.
    rewrite RL by assumption. destruct (Nat.leb_spec j level); [apply HR; assumption|]. apply (wfct_comp pp _ _ _ _ W1 (proj2 (KO x) Hx)). exact Hj. }
  split; [exact WU|]. split; [exact KU|]. intros s j Hj. rewrite smul_cst. apply phase_scale; [apply W0|apply U2|intros x Hx; apply KU; assumption|].
  intros x Hx. assert (Ix : In x (keys u)) by (destruct Hx as [Hx|Ex]; [exact Hx|subst x; apply U2]). pose proof (proj1 (KU x) Ix) as Ic.
  rewrite (pval_row pp no u), (pval_row pp n0 (cv c0)) by assumption. rewrite RL by assumption. destruct (Nat.leb_spec j level); [|lia]. apply HR; assumption.
Qed.

(** integers: int, int64, uint64, and a float64 or real complex128 holding an integer *)
Definition int_const (k : gconst) (z : Z) : Prop :=
  k = CInt z \/ k = CInt64 z \/ k = CUint64 z \/ (exists x : f64, is_finite x = true /\ B2R x = IZR z /\ (k = CFloat x \/ k = CComplex x f_zero)).
Theorem C29_integer : forall N pp o (c0 out : ckct N) k z n0 no, wfp N pp -> ord1_ok o -> (n0 < length (Qm pp))%nat -> (no < length (Qm pp))%nat ->
  wfct pp n0 false (cv c0) -> wfct pp no false (cv out) -> (forall x, In x (keys (cv out)) <-> In x (keys (cv c0))) ->
  int_const k z -> Z.abs z < 2 ^ 52 ->
  exists u, MultByConst pp o c0 k out = Ok (CK u (csc c0)) /\ wfct pp no false u /\ (forall x, In x (keys u) <-> In x (keys (cv c0))) /\
    forall s j, (j <= Nat.min n0 no)%nat -> eqm (mq (Qi pp j)) (phase pp s u j) (smul z (phase pp s (cv c0) j)).
Proof.
  intros N pp o c0 out k z n0 no WF O H0 H1 W0 W1 KO KZ HZ. destruct f_one_ok as [E1 F1].
  assert (G : exists x : f64, is_finite x = true /\ B2R x = IZR z /\ getConstAndScale pp (Nat.min n0 no) k = (x, f_zero, f_one)).
  { assert (FF : is_finite (f_of_int z) = true /\ B2R (f_of_int z) = IZR z).
    { destruct (f_of_int_ok z) as [A B]; [lia|]. split; [exact B|]. rewrite A. apply rnd_fmt. apply fmt_int. lia. }
    assert (HF : forall x : f64, is_finite x = true -> B2R x = IZR z -> hasFrac x = false).
    { intros x Fx Ex. unfold hasFrac. apply andb_false_intro2. rewrite (int64_int x z Fx Ex ltac:(lia)). destruct FF as [F2 E2].
      destruct (f_sub_ok x (f_of_int z) Fx F2) as [E3 F3]; [rewrite Ex, E2, Rminus_diag_eq, Rabs_R0 by reflexivity; unfold big; apply IZR_le; lia|].
      apply negb_false_iff. apply (f_eq_ok _ _ F3 (proj2 f_zero_ok)). rewrite E3, Ex, E2, Rminus_diag_eq by reflexivity. rewrite (proj1 f_zero_ok). apply round_0. apply valid_rnd_N. }
    destruct KZ as [->|[->|[->|(x & Fx & Ex & [->| ->])]]].
    1-3: exists (f_of_int z); split; [apply FF|]; split; [apply FF|]; reflexivity.
    - exists x. split; [exact Fx|]. split; [exact Ex|]. unfold getConstAndScale. rewrite (HF x Fx Ex). reflexivity.
    - exists x. split; [exact Fx|]. split; [exact Ex|]. unfold getConstAndScale. rewrite (HF x Fx Ex). reflexivity. }
  destruct G as (x & Fx & Ex & GC). 
  destruct (mbc_apply pp o c0 out k x f_one n0 no WF O H0 H1 W0 W1 KO GC Fx F1) as (u & U1 & U2 & U3 & U4).
  - rewrite E1. lra.
  - apply (big_ok (2 ^ 53)); [rewrite E1, Ex, Rmult_1_l, <- abs_IZR; apply IZR_le; lia|apply Z.pow_le_mono_r; lia].
  - rewrite f_mul_one in U1. exists u. split; [exact U1|]. split; [exact U2|]. split; [exact U3|]. rewrite (supInt_int x z Fx Ex) in U4 by lia. exact U4.
Qed.
Print Assumptions C29_integer.

(** a constant with a fraction is scaled by float64(Q_level): the integer factor is within 1 of the float64 product *)
Lemma big_float_int (x : f64) : (IZR (2 ^ 53) <= Rabs (B2R x))%R -> exists z, B2R x = IZR z.
Proof.
  intros Hx. pose proof (fmt_B2R x) as G. unfold generic_format in G. set (m := Ztrunc (scaled_mantissa radix2 fexp64 (B2R x))) in *.
  assert (C : 1 <= cexp radix2 fexp64 (B2R x)).
  { unfold cexp, SpecFloat.fexp, SpecFloat.emin. assert (53 < mag radix2 (B2R x)); [|lia]. apply mag_gt_bpow. exact Hx. }
  set (e := cexp radix2 fexp64 (B2R x)) in *. exists (m * 2 ^ e). rewrite G. unfold F2R. cbn [Fnum Fexp]. rewrite mult_IZR. f_equal.
  change 2 with (radix_val radix2). rewrite IZR_Zpower by lia. reflexivity.
Qed.
Lemma frac_true (x : f64) : is_finite x = true -> (Rabs (B2R x) < IZR (2 ^ 63))%R -> (forall z, B2R x <> IZR z) -> hasFrac x = true.
Proof.
  intros Fx Bx NI. assert (NZ : B2R x <> 0%R) by (apply (NI 0)). unfold hasFrac. apply andb_true_intro. split.
  - apply negb_true_iff. destruct (f_eq x f_zero) eqn:E; [|reflexivity]. apply (f_eq_ok x f_zero Fx (proj2 f_zero_ok)) in E. rewrite (proj1 f_zero_ok) in E. contradiction.
  - set (t := Ztrunc (B2R x)).
    assert (TB : (Rabs (IZR t) <= Rabs (B2R x))%R).
    { unfold t. rewrite <- abs_IZR, <- Ztrunc_abs. pose proof (Rabs_pos (B2R x)) as P. rewrite Ztrunc_floor by exact P. apply Zfloor_lb. }
    assert (TZ : Z.abs t < 2 ^ 63) by (apply lt_IZR; rewrite abs_IZR; lra).
    assert (T53 : Z.abs t < 2 ^ 53).
    { destruct (Z_lt_le_dec (Z.abs t) (2 ^ 53)) as [L|G]; [exact L|]. exfalso.
      assert (GX : (IZR (2 ^ 53) <= Rabs (B2R x))%R) by (eapply Rle_trans; [apply IZR_le; exact G|]; rewrite abs_IZR; exact TB).
      destruct (big_float_int x GX) as [z Hz]. apply (NI z). exact Hz. }
    assert (I64 : f_int64 x = t).
    { unfold f_int64. rewrite Fx. rewrite f_trunc_ok. fold t. destruct (Z.leb_spec (- 2 ^ 63) t); [|lia]. destruct (Z.ltb_spec t (2 ^ 63)); [|lia]. reflexivity. }
    rewrite I64. destruct (f_of_int_ok t) as [Et Ft]; [lia|]. rewrite rnd_fmt in Et by (apply fmt_int; exact T53).
    assert (BB : (Rabs (B2R x - B2R (f_of_int t)) <= big)%R).
    { rewrite Et. eapply Rle_trans; [apply Rabs_triang|]. rewrite Rabs_Ropp. unfold big. apply Rle_trans with (IZR (2 ^ 63 + 2 ^ 63)); [rewrite plus_IZR; lra|apply IZR_le; lia]. }
    destruct (f_sub_ok x (f_of_int t) Fx Ft BB) as [E3 F3].
    apply negb_true_iff. destruct (f_eq (f_sub x (f_of_int t)) f_zero) eqn:E; [|reflexivity]. exfalso. apply (f_eq_ok _ _ F3 (proj2 f_zero_ok)) in E. rewrite E3, (proj1 f_zero_ok) in E.
    revert E. unfold Rminus. apply round_plus_neq_0; [apply FLT_exp_valid; reflexivity|apply (@monotone_exp_not_FTZ (FLT_exp (-1074) 53)); [apply FLT_exp_valid; reflexivity|apply FLT_exp_monotone]|apply valid_rnd_N|apply fmt_B2R|apply generic_format_opp; apply fmt_B2R|].
    rewrite Et. intros X. apply (NI t). lra.
Qed.
Theorem C29_fraction : forall N pp o (c0 out : ckct N) k (x : f64) n0 no, wfp N pp -> ord1_ok o -> (n0 < length (Qm pp))%nat -> (no < length (Qm pp))%nat ->
  wfct pp n0 false (cv c0) -> wfct pp no false (cv out) -> (forall x, In x (keys (cv out)) <-> In x (keys (cv c0))) ->
  k = CFloat x \/ k = CComplex x f_zero -> is_finite x = true -> (Rabs (B2R x) < IZR (2 ^ 63))%R -> (forall z, B2R x <> IZR z) ->
  let qL := f_of_int (mq (Qi pp (Nat.min n0 no))) in
  exists u K, MultByConst pp o c0 k out = Ok (CK u (f_mul (csc c0) qL)) /\ wfct pp no false u /\ (forall x, In x (keys u) <-> In x (keys (cv c0))) /\
    (Rabs (IZR K - rnd (B2R qL * B2R x)) <= 1)%R /\
    forall s j, (j <= Nat.min n0 no)%nat -> eqm (mq (Qi pp j)) (phase pp s u j) (smul K (phase pp s (cv c0) j)).
Proof.
  intros N pp o c0 out k x n0 no WF O H0 H1 W0 W1 KO KX Fx Bx NI qL. pose proof (frac_true x Fx Bx NI) as FT.
  set (q := mq (Qi pp (Nat.min n0 no))) in *.
  assert (Q0 : 2 <= q < 2 ^ 63).
  { destruct (okQ pp WF (Nat.min n0 no) ltac:(lia)) as [_ [X Y]]. unfold q. lia. }
  destruct (f_of_int_ok q) as [QE QF]; [lia|]. fold qL in QE, QF.
  assert (QP : (0 <= B2R qL)%R) by (rewrite QE; apply rnd_nonneg; apply IZR_le; lia).
  assert (QB : (B2R qL <= IZR (2 ^ 63))%R) by (rewrite QE, <- (rnd_fmt (IZR (2 ^ 63))) by (apply fmt_pow; lia); apply rnd_le; apply IZR_le; lia).
  assert (HB : (Rabs (B2R qL * B2R x) <= big / 4)%R).
  { apply (big_ok (2 ^ 63 * 2 ^ 63)); [|change (2 ^ 63 * 2 ^ 63) with (2 ^ 126); apply Z.pow_le_mono_r; lia]. rewrite Rabs_mult, mult_IZR, (Rabs_pos_eq (B2R qL)) by exact QP. apply Rmult_le_compat; trivial; [apply Rabs_pos|lra]. }
  assert (GC : getConstAndScale pp (Nat.min n0 no) k = (x, f_zero, qL)).
  { destruct KX as [->| ->]; unfold getConstAndScale; rewrite FT; reflexivity. }
  destruct (mbc_apply pp o c0 out k x qL n0 no WF O H0 H1 W0 W1 KO GC Fx QF QP HB) as (u & U1 & U2 & U3 & U4).
  exists u, (supInt x qL). split; [exact U1|]. split; [exact U2|]. split; [exact U3|]. split; [|exact U4]. apply supInt_ok; assumption.
Qed.
Print Assumptions C29_fraction.
(** a constant of any other type (float32, int32, uint, *big.Int ...) multiplies by zero, without an error *)
Theorem C29_other_type_refuted : forall N pp o (c0 out : ckct N) n0 no, wfp N pp -> ord1_ok o -> (n0 < length (Qm pp))%nat -> (no < length (Qm pp))%nat ->
  wfct pp n0 false (cv c0) -> wfct pp no false (cv out) -> (forall x, In x (keys (cv out)) <-> In x (keys (cv c0))) ->
  exists u, MultByConst pp o c0 COther out = Ok (CK u (csc c0)) /\ forall s j, (j <= Nat.min n0 no)%nat -> eqm (mq (Qi pp j)) (phase pp s u j) R0.
Proof.
  intros N pp o c0 out n0 no WF O H0 H1 W0 W1 KO. destruct f_one_ok as [E1 F1]. destruct f_zero_ok as [E0 F0].
  destruct (mbc_apply pp o c0 out COther f_zero f_one n0 no WF O H0 H1 W0 W1 KO eq_refl F0 F1) as (u & U1 & U2 & U3 & U4).
  - rewrite E1. lra.
  - rewrite E0, Rmult_0_r, Rabs_R0. assert (0 <= big)%R by (unfold big; apply IZR_le; lia). lra.
  - rewrite f_mul_one in U1. exists u. split; [exact U1|]. intros s j Hj. rewrite supInt_zero in U4 by (trivial; rewrite E1; lra).
    eapply eqm_trans; [apply U4; assumption|]. apply eqm_eq. apply R_ext. intros i Hi. rewrite co_smul, co_R0. ring.
Qed.
Print Assumptions C29_other_type_refuted.
(** an imaginary constant: the ciphertext is in the coefficient domain, where the two half-rows are scaled by re + im psi^(N/2) and
    re - im psi^(N/2); the encryption (without parties) of the constant 1 times i does not decrypt to X^(N/2) *)
Definition ex_one : ctT 8 := [(id0, Pol [ex_poly [1]] false)].
Definition ex_ires := MultByConst ex_pp (fun l => l) (CK ex_one f_one) (CComplex f_zero f_one) (CK ex_one f_one).
Lemma ex_ires_value : match ex_ires with Ok u => Some (keys (cv u), pntt (comp (cv u) id0), map (co (row (prows (comp (cv u) id0)) 0)) (seq 0 8)) | Panic => None end
  = Some ([id0], false, [22; 0; 0; 0; 0; 0; 0; 0]).
Proof. vm_compute. reflexivity. Qed.
Theorem C29_complex_refuted : exists (c0 : ckct 8) u, wfct ex_pp 0 false (cv c0) /\ (forall s, decrypts ex_pp s (cv c0) 0 (ex_poly [1])) /\
  MultByConst ex_pp (fun l => l) c0 (CComplex f_zero f_one) c0 = Ok u /\
  forall s, ~ decrypts ex_pp s (cv u) 0 (mul (ex_poly [0; 0; 0; 0; 1]) (ex_poly [1])).
Proof.
  exists (CK ex_one f_one). pose proof ex_ires_value as E. fold ex_ires. destruct ex_ires as [u|]; [|discriminate]. injection E as K F C. exists u.
  assert (W : wfct ex_pp 0 false ex_one).
  { apply wfct_intro; [constructor; [intros []|constructor]|left; reflexivity|]. intros x Hx. destruct Hx as [<-|[]]. split; [reflexivity|]. split; [reflexivity|]. intros j Hj. replace j with 0%nat by lia.
    intros i Hi. do 8 (destruct i as [|i]; [vm_compute; split; discriminate|]). lia. }
  assert (PH : forall s (c : ctT 8), keys c = [id0] -> phase ex_pp s c 0 = pvalue ex_pp (comp c id0) 0).
  { intros s c Kc. unfold phase. replace (parties c) with (@nil string) by (unfold parties; rewrite Kc; reflexivity). apply R_ext. intros i Hi. rewrite co_add. cbn [Lsum fold_right map]. change (Lsum [] (fun id => mul (pvalue ex_pp (comp c id) 0) (s id))) with (@R0 8). rewrite co_R0. ring. }
  split; [exact W|]. split; [|split; [reflexivity|]].
  - intros s j Hj. replace j with 0%nat by lia. apply eqm_eq. rewrite PH by reflexivity. reflexivity.
  - intros s D. specialize (D 0%nat (le_n 0)). rewrite (PH s (cv u) K) in D. unfold pvalue in D. rewrite F in D. rewrite eqm_co in D. specialize (D 0%nat ltac:(lia)).
    assert (C0 : co (row (prows (comp (cv u) id0)) 0) 0 = 22) by exact C. rewrite C0 in D. revert D.
    replace (co (mul (ex_poly [0; 0; 0; 0; 1]) (ex_poly [1])) 0) with 0 by (vm_compute; reflexivity). change (mq (Qi ex_pp 0)) with 97. intros [z Hz]. lia.
Qed.
Print Assumptions C29_complex_refuted.
