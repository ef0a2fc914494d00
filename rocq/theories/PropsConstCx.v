(** C29, complex constants: what MultByConst does with re + i im, im <> 0.  The factors re + im psi^(N/2) and re - im psi^(N/2) are meant for the two halves of an NTT row;
    the ciphertexts of this code base are in the coefficient domain, so the two halves of the coefficients get them instead. *)
From Flocq Require Import Core BinarySingleNaN Plus_error.
From Coq Require Import Znumtheory Setoid Morphisms Reals Lra.
From Verif Require Import Base IdSetModel IdSetSpec IdSetProofs KeySetModel NumTheory Negacyclic Ntt Word BasisExt BasisExtProofs Rows RlweModel KeyGenModel SchemeSpec ExtProd ExtProps Galois KeyGenProofs Instance CtModel CtSpec CtProofs EncDecProofs PropsEnc KeySwitchModel Digits KsLoops RotProofs FloatModel CkksFloat CkksModel FloatProofs CkksFloatProofs CkksProofs CkksRescale PropsCkks PropsConst.
Open Scope Z_scope.

(** the square root of -1 modulo Q_j that the code uses: psi_j^(N/2) *)
Definition rootI (N : nat) (m : modulus) : Z := mpsi m ^ Z.of_nat (N / 2).
Lemma rootI_sq N pp j : wfp N pp -> (j < length (Qm pp))%nat -> eqz (mq (Qi pp j)) (rootI N (Qi pp j) * rootI N (Qi pp j)) (-1).
Proof.
  intros WF Hj. destruct (okQ pp WF j Hj) as [KM _]. destruct KM as (_ & _ & (L & EN) & E). pose proof (proj1 (wf_N _ _ WF)) as N2.
  unfold rootI. rewrite <- Z.pow_add_r by lia. replace (Z.of_nat (N / 2) + Z.of_nat (N / 2)) with (Z.of_nat N); [exact E|].
  destruct L as [|L]; [rewrite EN in N2; cbn in N2; lia|]. assert (H : N = (2 * 2 ^ L)%nat) by (rewrite EN; reflexivity). rewrite H. rewrite Nat.mul_comm, Nat.div_mul by lia. lia.
Qed.

Section Cx.
  Context {N : nat} (pp : rparams) (WF : wfp N pp).
  Lemma scaled_ok j (re im sc : f64) : (j < length (Qm pp))%nat -> is_finite re = true -> is_finite im = true -> is_finite sc = true -> (0 <= B2R sc)%R ->
    (Rabs (B2R sc * B2R re) <= big / 4)%R -> (Rabs (B2R sc * B2R im) <= big / 4)%R -> B2R im <> 0%R ->
    let m := Qi pp j in
    exists x y, scaledConsts (N := N) m re im sc = Ok (mform x (mq m) (bred_params (mq m)), mform y (mq m) (bred_params (mq m))) /\ 0 <= x <= mq m /\ 0 <= y <= mq m /\
      eqz (mq m) x (supInt re sc + supInt im sc * rootI N m) /\ eqz (mq m) y (supInt re sc - supInt im sc * rootI N m).
  Proof using WF.
    intros Hj F1 F2 Fs S0 B1 B2 NZ m. destruct (okQ pp WF j Hj) as [_ K]. fold m in K. pose proof (okq_lt _ K) as QW. assert (Q0 : 0 < mq m < 2 ^ 62) by (destruct K; unfold W in *; lia).
    unfold scaledConsts. fold m.
    assert (SR : exists sR, (if negb (f_eq re f_zero) then scaleUpExact re sc (mq m) else Ok 0) = Ok sR /\ 0 <= sR <= mq m /\ eqz (mq m) sR (supInt re sc)).
    { destruct (f_eq re f_zero) eqn:Ez; cbn [negb].
      - apply (f_eq_ok re f_zero F1 (proj2 f_zero_ok)) in Ez. rewrite (proj1 f_zero_ok) in Ez. exists 0. split; [reflexivity|]. split; [lia|]. rewrite supInt_zero by assumption. apply eqz_refl.
      - apply (scaleUp_ok re sc (mq m) F1 Fs S0 B1). unfold W. lia. }
    destruct SR as (sR & -> & R1 & R2). cbn [rbind].
    assert (EI : f_eq im f_zero = false). { destruct (f_eq im f_zero) eqn:Ez; [|reflexivity]. apply (f_eq_ok im f_zero F2 (proj2 f_zero_ok)) in Ez. rewrite (proj1 f_zero_ok) in Ez. contradiction. }
    rewrite EI. cbn [negb]. destruct (scaleUp_ok im sc (mq m) F2 Fs S0 B2 ltac:(unfold W; lia)) as (sI & -> & I1 & I2). cbn [rbind].
    assert (PW : 0 <= powm (mq m) (mpsi m) (Z.of_nat (N / 2)) < mq m) by (rewrite powm_ok by lia; apply Z.mod_pos_bound; lia).
    destruct (mform_mont (powm (mq m) (mpsi m) (Z.of_nat (N / 2))) (mq m) K ltac:(unfold W; lia)) as [M1 M2]. fold (nttPsi1 (N := N) m) in M1, M2.
    destruct (mred_mont sI (nttPsi1 (N := N) m) _ (mq m) K ltac:(unfold W; lia) M1 M2) as [X1 X2]. set (t := mred sI (nttPsi1 m) (mq m) (mred_params (mq m))) in *.
    assert (X3 : eqz (mq m) t (supInt im sc * rootI N m)).
    { rewrite X2. apply eqz_mul; [exact I2|]. rewrite powm_ok by lia. unfold rootI. exists (- ((mpsi m ^ Z.of_nat (N / 2)) / mq m)). pose proof (Z.div_mod (mpsi m ^ Z.of_nat (N / 2)) (mq m) ltac:(lia)). lia. }
    assert (W1 : w64 (sR + t) = sR + t) by (unfold w64, W; apply Z.mod_small; lia). assert (W2 : w64 (sR + (mq m - t)) = sR + (mq m - t)) by (unfold w64, W; apply Z.mod_small; lia).
    destruct (cred_le (sR + t) (mq m) ltac:(lia)) as [C1 C2]. destruct (cred_le (sR + (mq m - t)) (mq m) ltac:(lia)) as [D1 D2].
    exists (cred (w64 (sR + t)) (mq m)), (cred (w64 (sR + (mq m - t))) (mq m)). rewrite W1, W2. split; [reflexivity|]. split; [exact C1|]. split; [exact D1|]. split.
    - rewrite C2, R2, X3. apply eqz_refl.
    - rewrite D2, R2. destruct X3 as [k Hk]. exists (1 - k). lia.
  Qed.

  Lemma halves_two m x y (a : R N) : okq (mq m) -> 0 <= x <= mq m -> 0 <= y <= mq m -> inr m a ->
    let r := halves_row m (mform x (mq m) (bred_params (mq m)), mform y (mq m) (bred_params (mq m))) a in
    forall i, (i < N)%nat -> 0 <= co r i < mq m /\ eqz (mq m) (co r i) ((if (i <? N / 2)%nat then x else y) * co a i).
  Proof using.
    intros K Hx Hy HA r i Hi. pose proof (okq_lt _ K) as QL. destruct (mform_mont x (mq m) K ltac:(lia)) as [M1 M2]. destruct (mform_mont y (mq m) K ltac:(lia)) as [M3 M4].
    unfold r, halves_row. rewrite co_mkR by assumption. cbn [fst snd]. specialize (HA i Hi). rewrite (Z.mul_comm _ (co a i)). destruct (i <? N / 2)%nat; apply mred_mont; trivial; lia.
  Qed.

  Lemma mbc_cx o (c0 out : ckct N) k (re im sc : f64) n0 no : ord1_ok o -> (n0 < length (Qm pp))%nat -> (no < length (Qm pp))%nat ->
    wfct pp n0 false (cv c0) -> wfct pp no false (cv out) -> (forall x, In x (keys (cv out)) <-> In x (keys (cv c0))) ->
    getConstAndScale pp (Nat.min n0 no) k = (re, im, sc) -> is_finite re = true -> is_finite im = true -> is_finite sc = true -> (0 <= B2R sc)%R ->
    (Rabs (B2R sc * B2R re) <= big / 4)%R -> (Rabs (B2R sc * B2R im) <= big / 4)%R -> B2R im <> 0%R ->
    exists u, MultByConst pp o c0 k out = Ok (CK u (f_mul (csc c0) sc)) /\ wfct pp no false u /\ (forall x, In x (keys u) <-> In x (keys (cv c0))) /\
      forall x j i, In x (keys (cv c0)) -> (j <= Nat.min n0 no)%nat -> (i < N)%nat ->
        eqz (mq (Qi pp j)) (co (row (prows (comp u x)) j) i)
          ((if (i <? N / 2)%nat then supInt re sc + supInt im sc * rootI N (Qi pp j) else supInt re sc - supInt im sc * rootI N (Qi pp j)) * co (row (prows (comp (cv c0) x)) j) i).
  Proof using WF.
    intros O H0 H1 W0 W1 KO GC F1 F2 Fs S0 B1 B2 NZ. set (level := Nat.min n0 no) in *.
    pose (Pr := fun (j : nat) (z : Z * Z) => exists x y, z = (mform x (mq (Qi pp j)) (bred_params (mq (Qi pp j))), mform y (mq (Qi pp j)) (bred_params (mq (Qi pp j)))) /\ 0 <= x <= mq (Qi pp j) /\ 0 <= y <= mq (Qi pp j) /\
       eqz (mq (Qi pp j)) x (supInt re sc + supInt im sc * rootI N (Qi pp j)) /\ eqz (mq (Qi pp j)) y (supInt re sc - supInt im sc * rootI N (Qi pp j))).
    destruct (rmapM_ok (fun i => scaledConsts (N := N) (Qi pp i) re im sc) (seq 0 (S level)) Pr) as (cs & C1 & C2).
    { intros j Hj. apply in_seq in Hj. destruct (scaled_ok j re im sc ltac:(lia) F1 F2 Fs S0 B1 B2 NZ) as (x & y & A1 & A2). eexists. split; [exact A1|]. exists x, y. split; [reflexivity|exact A2]. }
    assert (C3 : forall j, (j <= level)%nat -> Pr j (nth j cs (0, 0))).
    { intros j Hj. pose proof (nth_rmapM _ _ Pr 0%nat (0, 0) j C2) as X. rewrite seq_length, seq_nth in X by lia. cbn [plus] in X. apply X. lia. }
    assert (C4 : mbcConsts (N := N) pp level k = Ok cs) by (unfold mbcConsts; rewrite GC; exact C1).
    pose proof (MultByConst_ok pp o c0 out k n0 no O (wfct_shape pp _ _ W0) (wfct_shape pp _ _ W1) (fun x Hx => proj2 (KO x) Hx)) as X. cbn zeta in X. fold level in X.
    rewrite C4 in X. destruct X as (u & U1 & U2 & U3 & U4 & _). unfold mbcScale in U1. rewrite GC in U1. cbn [snd] in U1. exists u. split; [exact U1|].
    assert (KU : forall x, In x (keys u) <-> In x (keys (cv c0))) by (intros x; rewrite U3; apply KO).
    assert (HR : forall x j i, In x (keys (cv c0)) -> (j <= level)%nat -> (i < N)%nat -> 0 <= co (hrow pp cs (cv c0) x j) i < mq (Qi pp j) /\
       eqz (mq (Qi pp j)) (co (hrow pp cs (cv c0) x j) i) ((if (i <? N / 2)%nat then supInt re sc + supInt im sc * rootI N (Qi pp j) else supInt re sc - supInt im sc * rootI N (Qi pp j)) * co (row (prows (comp (cv c0) x)) j) i)).
    { intros x j i Hx Hj Hi. destruct (C3 j Hj) as (y & z & E & Y1 & Y2 & Y3 & Y4). unfold hrow. rewrite E. destruct (okQ pp WF j ltac:(lia)) as [_ K].
      destruct (halves_two (Qi pp j) y z (row (prows (comp (cv c0) x)) j) K Y1 Y2) with (i := i) as [Z1 Z2]; trivial.
      { destruct (wfct_comp pp _ _ _ _ W0 Hx) as (_ & _ & I). apply I. lia. }
      split; [exact Z1|]. rewrite Z2. apply eqz_mul; [destruct (i <? N / 2)%nat; assumption|apply eqz_refl]. }
    assert (RL : forall x j, In x (keys (cv c0)) -> row (prows (comp u x)) j = if (j <=? level)%nat then hrow pp cs (cv c0) x j else row (prows (comp (cv out) x)) j).
    { intros x j Hx. rewrite (U4 x Hx). cbn [prows]. unfold row. destruct (Nat.leb_spec j level).
      - rewrite app_nth1 by (rewrite tab_length; lia). fold (row (tab (S level) (hrow pp cs (cv c0) x)) j). apply row_tab. lia.
      - rewrite app_nth2 by (rewrite tab_length; lia). rewrite tab_length. rewrite <- (firstn_skipn (S level) (prows (comp (cv out) x))) at 2.
        destruct (wfct_comp pp _ _ _ _ W1 (proj2 (KO x) Hx)) as (L & _). rewrite app_nth2 by (rewrite firstn_length; lia). rewrite firstn_length. f_equal. lia. }
    split; [|split; [exact KU|]].
    - apply wfct_intro; [apply U2|apply U2|]. intros x Hx. destruct (proj2 (proj2 U2) x Hx) as [L F]. split; [exact L|]. split; [exact F|]. intros j Hj. apply KU in Hx.
      rewrite RL by assumption. destruct (Nat.leb_spec j level); [intros i Hi; destruct (HR x j i Hx ltac:(assumption) Hi) as [A _]; lia|]. apply (wfct_comp pp _ _ _ _ W1 (proj2 (KO x) Hx)). exact Hj.
    - intros x j i Hx Hj Hi. rewrite RL by assumption. destruct (Nat.leb_spec j level); [|lia]. apply HR; assumption.
  Qed.
End Cx.

Lemma hasFrac_int (x : f64) z : is_finite x = true -> B2R x = IZR z -> Z.abs z < 2 ^ 52 -> hasFrac x = false.
Proof.
  intros Fx Ex HZ. unfold hasFrac. apply andb_false_intro2. rewrite (int64_int x z Fx Ex ltac:(lia)).
  assert (FF : is_finite (f_of_int z) = true /\ B2R (f_of_int z) = IZR z). { destruct (f_of_int_ok z) as [A B]; [lia|]. split; [exact B|]. rewrite A. apply rnd_fmt. apply fmt_int. lia. }
  destruct FF as [F2 E2].
  destruct (f_sub_ok x (f_of_int z) Fx F2) as [E3 F3]; [rewrite Ex, E2, Rminus_diag_eq, Rabs_R0 by reflexivity; unfold big; apply IZR_le; lia|].
  apply negb_false_iff. apply (f_eq_ok _ _ F3 (proj2 f_zero_ok)). rewrite E3, Ex, E2, Rminus_diag_eq by reflexivity. rewrite (proj1 f_zero_ok). apply round_0. apply valid_rnd_N.
Qed.

(** a Gaussian integer a + b i, b <> 0: with r_j the square root psi_j^(N/2) of -1 modulo Q_j, the first half of the coefficients of every polynomial of the ciphertext is multiplied
    by a + b r_j and the second half by a - b r_j *)
Theorem C29_complex_effect : forall N pp o (c0 out : ckct N) (re im : f64) a b n0 no, wfp N pp -> ord1_ok o -> (n0 < length (Qm pp))%nat -> (no < length (Qm pp))%nat ->
  wfct pp n0 false (cv c0) -> wfct pp no false (cv out) -> (forall x, In x (keys (cv out)) <-> In x (keys (cv c0))) ->
  is_finite re = true -> is_finite im = true -> B2R re = IZR a -> B2R im = IZR b -> Z.abs a < 2 ^ 52 -> Z.abs b < 2 ^ 52 -> b <> 0 ->
  exists u, MultByConst pp o c0 (CComplex re im) out = Ok (CK u (csc c0)) /\ wfct pp no false u /\ (forall x, In x (keys u) <-> In x (keys (cv c0))) /\
    forall x j i, In x (keys (cv c0)) -> (j <= Nat.min n0 no)%nat -> (i < N)%nat ->
      let r := rootI N (Qi pp j) in
      eqz (mq (Qi pp j)) (r * r) (-1) /\
      eqz (mq (Qi pp j)) (co (row (prows (comp u x)) j) i) ((if (i <? N / 2)%nat then a + b * r else a - b * r) * co (row (prows (comp (cv c0) x)) j) i).
Proof.
  intros N pp o c0 out re im a b n0 no WF O H0 H1 W0 W1 KO F1 F2 E1 E2 A1 A2 NZ. destruct f_one_ok as [Eo Fo].
  assert (GC : getConstAndScale pp (Nat.min n0 no) (CComplex re im) = (re, im, f_one)) by (unfold getConstAndScale; rewrite (hasFrac_int re a), (hasFrac_int im b) by assumption; reflexivity).
  destruct (mbc_cx pp WF o c0 out (CComplex re im) re im f_one n0 no O H0 H1 W0 W1 KO GC F1 F2 Fo) as (u & U1 & U2 & U3 & U4).
  - rewrite Eo. lra.
  - apply (big_ok (2 ^ 53)); [rewrite Eo, E1, Rmult_1_l, <- abs_IZR; apply IZR_le; lia|apply Z.pow_le_mono_r; lia].
  - apply (big_ok (2 ^ 53)); [rewrite Eo, E2, Rmult_1_l, <- abs_IZR; apply IZR_le; lia|apply Z.pow_le_mono_r; lia].
  - rewrite E2. intros X. apply NZ. apply eq_IZR. exact X.
  - rewrite f_mul_one in U1. exists u. split; [exact U1|]. split; [exact U2|]. split; [exact U3|]. rewrite (supInt_int re a F1 E1), (supInt_int im b F2 E2) in U4 by lia. intros x j i Hx Hj Hi.
    split; [apply (rootI_sq N pp j WF); lia|apply U4; assumption].
Qed.
Print Assumptions C29_complex_effect.
(** with a fraction in either part: the scale is multiplied by the last modulus, and a, b are replaced by integers within 1 of the float64 products with that modulus *)
Theorem C29_complex_fraction : forall N pp o (c0 out : ckct N) (re im : f64) n0 no, wfp N pp -> ord1_ok o -> (n0 < length (Qm pp))%nat -> (no < length (Qm pp))%nat ->
  wfct pp n0 false (cv c0) -> wfct pp no false (cv out) -> (forall x, In x (keys (cv out)) <-> In x (keys (cv c0))) ->
  is_finite re = true -> is_finite im = true -> (Rabs (B2R re) < IZR (2 ^ 63))%R -> (Rabs (B2R im) < IZR (2 ^ 63))%R -> B2R im <> 0%R -> (forall z, B2R re <> IZR z) \/ (forall z, B2R im <> IZR z) ->
  let qL := f_of_int (mq (Qi pp (Nat.min n0 no))) in
  exists u a b, MultByConst pp o c0 (CComplex re im) out = Ok (CK u (f_mul (csc c0) qL)) /\ wfct pp no false u /\ (forall x, In x (keys u) <-> In x (keys (cv c0))) /\
    (Rabs (IZR a - rnd (B2R qL * B2R re)) <= 1)%R /\ (Rabs (IZR b - rnd (B2R qL * B2R im)) <= 1)%R /\
    forall x j i, In x (keys (cv c0)) -> (j <= Nat.min n0 no)%nat -> (i < N)%nat ->
      let r := rootI N (Qi pp j) in
      eqz (mq (Qi pp j)) (r * r) (-1) /\
      eqz (mq (Qi pp j)) (co (row (prows (comp u x)) j) i) ((if (i <? N / 2)%nat then a + b * r else a - b * r) * co (row (prows (comp (cv c0) x)) j) i).
Proof.
  intros N pp o c0 out re im n0 no WF O H0 H1 W0 W1 KO F1 F2 B1 B2 NZ HF qL. set (q := mq (Qi pp (Nat.min n0 no))) in *.
  assert (Q0 : 2 <= q < 2 ^ 63) by (destruct (okQ pp WF (Nat.min n0 no) ltac:(lia)) as [_ [X Y]]; unfold q; lia).
  destruct (f_of_int_ok q) as [QE QF]; [lia|]. fold qL in QE, QF.
  assert (QP : (0 <= B2R qL)%R) by (rewrite QE; apply rnd_nonneg; apply IZR_le; lia).
  assert (QB : (B2R qL <= IZR (2 ^ 63))%R) by (rewrite QE, <- (rnd_fmt (IZR (2 ^ 63))) by (apply fmt_pow; lia); apply rnd_le; apply IZR_le; lia).
  assert (HB : forall x : f64, (Rabs (B2R x) < IZR (2 ^ 63))%R -> (Rabs (B2R qL * B2R x) <= big / 4)%R).
  { intros x Bx. apply (big_ok (2 ^ 63 * 2 ^ 63)); [|change (2 ^ 63 * 2 ^ 63) with (2 ^ 126); apply Z.pow_le_mono_r; lia]. rewrite Rabs_mult, mult_IZR, (Rabs_pos_eq (B2R qL)) by exact QP. apply Rmult_le_compat; trivial; [apply Rabs_pos|lra]. }
  assert (GC : getConstAndScale pp (Nat.min n0 no) (CComplex re im) = (re, im, qL)).
  { unfold getConstAndScale. replace (hasFrac re || hasFrac im)%bool with true; [reflexivity|]. symmetry. apply orb_true_iff. destruct HF as [HF|HF]; [left|right]; apply frac_true; assumption. }
  destruct (mbc_cx pp WF o c0 out (CComplex re im) re im qL n0 no O H0 H1 W0 W1 KO GC F1 F2 QF QP (HB re B1) (HB im B2) NZ) as (u & U1 & U2 & U3 & U4).
  exists u, (supInt re qL), (supInt im qL). split; [exact U1|]. split; [exact U2|]. split; [exact U3|]. split; [apply supInt_ok; trivial; apply HB; exact B1|]. split; [apply supInt_ok; trivial; apply HB; exact B2|].
  intros x j i Hx Hj Hi. split; [apply (rootI_sq N pp j WF); lia|apply U4; assumption].
Qed.
Print Assumptions C29_complex_fraction.

(** a + b X^(N/2), whose slots are a + b i *)
Definition gauss (N : nat) (a b : Z) : R N := mkR (fun i => if (i =? 0)%nat then a else if (i =? N / 2)%nat then b else 0).
(** for all parameters and every Gaussian integer with b <> 0 modulo Q_0 there is a ciphertext of the constant 1 whose product does not decrypt to a + b X^(N/2), under no secret keys *)
Theorem C29_complex_never : forall N pp o (re im : f64) a b, wfp N pp -> ord1_ok o -> is_finite re = true -> is_finite im = true -> B2R re = IZR a -> B2R im = IZR b -> Z.abs a < 2 ^ 52 -> Z.abs b < 2 ^ 52 ->
  ~ (mq (Qi pp 0) | b) ->
  exists (c0 : ckct N) u, wfct pp 0 false (cv c0) /\ (forall s, decrypts pp s (cv c0) 0 (gauss N 1 0)) /\ MultByConst pp o c0 (CComplex re im) c0 = Ok u /\ forall s, ~ decrypts pp s (cv u) 0 (gauss N a b).
Proof.
  intros N pp o re im a b WF O F1 F2 E1 E2 A1 A2 ND. pose proof (proj1 (wf_N _ _ WF)) as N2. pose proof (Nat.div_le_mono 2 N 2 ltac:(lia) N2) as H2. change (2 / 2)%nat with 1%nat in H2. pose proof (Nat.div_lt N 2 ltac:(lia) ltac:(lia)) as H3.
  pose proof (wf_Qpos _ _ WF) as QP. destruct (okQ pp WF 0%nat QP) as [_ K]. assert (Q1 : 1 < mq (Qi pp 0)) by (destruct K; lia).
  set (c := [(id0, Pol [gauss N 1 0] false)] : ctT N). exists (CK c f_one).
  assert (PH : forall s (v : ctT N), mwf v -> (forall x, In x (keys v) <-> In x [id0]) -> phase pp s v 0 = pvalue pp (comp v id0) 0).
  { intros s v MW Kc. unfold phase. replace (parties v) with (@nil string).
    - apply R_ext. intros i Hi. rewrite co_add. change (Lsum [] (fun id => mul (pvalue pp (comp v id) 0) (s id))) with (@R0 N). rewrite co_R0. ring.
    - symmetry. apply incl_l_nil. intros x Hx. apply in_parties in Hx as [X2 X1]. apply Kc in X1. destruct X1 as [<-|[]]. contradiction. }
  assert (W : wfct pp 0 false c).
  { apply wfct_intro; [constructor; [intros []|constructor]|left; reflexivity|]. intros x Hx. destruct Hx as [<-|[]]. split; [reflexivity|]. split; [reflexivity|]. intros j Hj. replace j with 0%nat by lia.
    change (inr (Qi pp 0) (gauss N 1 0)). intros i Hi. unfold gauss. rewrite co_mkR by exact Hi. destruct (i =? 0)%nat; [lia|]. destruct (i =? N / 2)%nat; lia. }
  assert (NZ : b <> 0) by (intros ->; apply ND; apply Z.divide_0_r).
  destruct (C29_complex_effect N pp o (CK c f_one) (CK c f_one) re im a b 0 0 WF O QP QP W W) as (u & U1 & U2 & U3 & U4); trivial; [tauto|].
  exists (CK u f_one). split; [exact W|]. split; [|split; [exact U1|]].
  - intros s j Hj. replace j with 0%nat by lia. cbn [cv]. rewrite PH; [reflexivity|apply W|tauto].
  - cbn [cv] in *. intros s D. specialize (D 0%nat (le_n 0)). rewrite (PH s u) in D; [|apply U2|exact U3]. unfold pvalue in D.
    destruct (wfct_comp pp _ _ _ id0 U2 (proj2 (U3 id0) (or_introl eq_refl))) as (_ & FU & _). rewrite FU in D. rewrite eqm_co in D. specialize (D (N / 2)%nat H3).
    destruct (U4 id0 0%nat (N / 2)%nat (or_introl eq_refl) (le_n 0) H3) as [_ X]. change (row (prows (comp c id0)) 0) with (gauss N 1 0) in X.
    assert (G0 : co (gauss N 1 0) (N / 2) = 0). { unfold gauss. rewrite co_mkR by exact H3. destruct (Nat.eqb_spec (N / 2) 0); [lia|]. rewrite Nat.eqb_refl. reflexivity. }
    assert (G1 : co (gauss N a b) (N / 2) = b). { unfold gauss. rewrite co_mkR by exact H3. destruct (Nat.eqb_spec (N / 2) 0); [lia|]. rewrite Nat.eqb_refl. reflexivity. }
    rewrite G0, Z.mul_0_r in X. rewrite G1 in D. apply ND. destruct X as [k1 X], D as [k2 D]. exists (k1 - k2). lia.
Qed.
Print Assumptions C29_complex_never.

(** 2 + 3i, with the complex literal written as two float64 values, and 1/2 + 3i *)
Example C29_complex_nonvacuous : let h := f_div f_one (f_of_int 2) in is_finite (f_of_int 2) = true /\ is_finite (f_of_int 3) = true /\ B2R (f_of_int 2) = 2%R /\ B2R (f_of_int 3) = 3%R /\ ~ (mq (Qi ex_pp 0) | 3) /\
  is_finite h = true /\ (Rabs (B2R h) < IZR (2 ^ 63))%R /\ forall z, B2R h <> IZR z.
Proof.
  cbv zeta. assert (E : B2R (f_div f_one (f_of_int 2)) = (1 / 2)%R) by (vm_compute; lra). rewrite E.
  split; [vm_compute; reflexivity|]. split; [vm_compute; reflexivity|]. split; [vm_compute; lra|]. split; [vm_compute; lra|]. split; [change (mq (Qi ex_pp 0)) with 97; intros [z Hz]; lia|]. split; [vm_compute; reflexivity|]. split.
  - rewrite Rabs_pos_eq by lra. change (2 ^ 63) with 9223372036854775808. lra.
  - intros z Hz. assert (H : (1 = IZR (2 * z))%R) by (rewrite mult_IZR; lra). apply eq_IZR in H. lia.
Qed.
