(** C59 for the parameter set of cnn/cnn_test.go (PN14QP433) and for the larger set of mkckks_test.go (PN15QP880), and the proof that the hypotheses can be met. *)
From Flocq Require Import Core BinarySingleNaN.
From Coq Require Import Znumtheory Setoid Morphisms Reals Lra.
From Verif Require Import Base IdSetModel KeySetModel NumTheory Negacyclic Ntt Word BasisExt BasisExtProofs DecompProofs BasisSpec Rows RlweModel KeyGenModel SchemeSpec ExtProd ExtProps Galois KeyGenProofs Instance CtModel CtSpec CtProofs EncDecProofs EncMsgModel KeySwitchModel Digits KsLoops RotProofs ConjProofs MulProofs PropsEnc PropsKeySwitch PropsRotate FloatModel CkksFloat CkksModel FloatProofs CkksFloatProofs CkksProofs CkksRescale PropsCkks PropsRescale PropsReserved Slots PropsSlots CkksSlots CkksCircuit PropsCkksCircuit PropsCkksScale PropsIndex Shipped BfvModel PropsShipped CkksBudget CkksHoist PropsCkksHoist PropsCkksShipped CkksTight PropsCkksTight CkksCalc CnnModel CnnNet CnnSetup PropsCnnNet SlotNorm SlotEncode.
Open Scope Z_scope.

Lemma fromZ_half (k : nat) (j : Z) : 0 <= j -> (j + Z.of_nat k = 60)%Z -> fromZ (2 ^ j) = half_pow (Z.of_nat k).
Proof.
  intros Hj H. unfold fromZ, half_pow, unit60. rewrite <- H, Z.pow_add_r, mult_IZR by lia. assert (0 < IZR (2 ^ j))%R by (apply IZR_lt, Z.pow_pos_nonneg; lia). assert (0 < IZR (2 ^ Z.of_nat k))%R by (apply IZR_lt, Z.pow_pos_nonneg; lia). field. lra.
Qed.

(** The set of the test: two parties, scale 2^47, level 6; [cnn14_fresh] = 2^-13 + 2^-34 is the error of a fresh ciphertext. The inference ends at level 0, where slots and error must stay below 500 *)
Definition cnn14_fresh : Z := 2 ^ 47 + 2 ^ 26.
Definition cnn14_const : zconst := ZC (2 ^ 39) (2 ^ 46) (2 ^ 53) (2 ^ 12) [(unit60, cnn14_fresh)].
Theorem C59_cnn14 : forall u us (rs : rlkset N14) (rk : rotset N14) sks (pk : string -> publicKey N14) (s r : string -> R N14)
  (w : nat -> nat -> nat -> IdSetModel.order) (oe : nat -> list string -> list string) (o : IdSetModel.order) (pt mask : poly N14) Mk mu eps (ins : list (kinput N14)) st zn (net : network) (image : nat -> nat -> CC),
  (forall i j, (j < 7)%nat -> wordsQP cnn14 (u i j)) -> (forall i j, (j < 7)%nat -> wordsQP cnn14 (us i j)) ->
  let crs := cnn_crs cnn14 14 u us in let scale := f_of_int (2 ^ 47) in
  (forall a b c, order_ok (w a b c)) -> (forall n, ord1_ok (oe n)) -> order_ok o -> pool_ok cnn14 st -> plevel pt = 6%nat ->
  mwf sks -> (forall id k, mget seq_dec sks id = Some k -> In id [modelOwner; dataOwner]) -> (forall id, In id [modelOwner; dataOwner] -> cnn_generated cnn14 19 1 crs rs rk sks (cnn_keyrots 14) pk id (s id) (r id)) ->
  map ki_z ins = cnn_inputs net image -> map ki_id ins = dataOwner :: repeat modelOwner 15 -> (0 <= mu)%R -> (0 <= eps <= half_pow 34)%R -> (forall x, In x ins -> exists M, kinput_ok cnn14 scale 19 1 M mu eps x) ->
  kplainreg cnn14 (mask, scale) (KP scale Mk 1 eps) (placed encodedMask) -> net_within (net_of zn) net image ->
  let b := nth 101 (cnn_calc 6 cnn14_const zn cnn14_fresh) (ZB 0 0 0) in cnn_calc_ok 6 cnn14_const zn cnn14_fresh = true -> zmu b + zerr b <= (if (zl b =? 0)%nat then 500 else 2 ^ 40) * unit60 ->
  exists st' c p, cnn_session cnn14 scale crs rs rk pk w oe ins mask scale st = Ok (st', c) /\ fpos (csc c) /\ Decrypt cnn14 o (cv c) sks pt = Ok p /\ plevel p = zl b /\
    exists X, centred cnn14 (zl b) (prows p) X /\ (forall Y, centred cnn14 (zl b) (prows p) Y -> Y = X) /\
      (forall d, (d < 10)%nat -> (cabs (csub (cscale (/ B2R (csc c)) (ckks_slot X d)) (cnn_out net image d)) <= fromZ (zerr b))%R) /\
      forall value delta d0, (d0 < 10)%nat -> (forall d, (d < 10)%nat -> (Rabs (value d - fst (cscale (/ B2R (csc c)) (ckks_slot X d))) <= delta)%R) ->
        let m := (fromZ (zerr b) + delta)%R in (-100 + m < fst (cnn_out net image d0))%R -> (forall d, (d < 10)%nat -> d <> d0 -> (fst (cnn_out net image d) + 2 * m < fst (cnn_out net image d0))%R) ->
        decide10 value = Z.of_nat d0.
Proof.
  intros u us rs rk sks pk s r w oe o pt mask Mk mu eps ins st zn net image HU HUS crs scale O OE OD PO PL MW HSK HG EZ EI Hmu [He0 He1] HI HMask HW b OK HCap.
  destruct C50_ckks_wf as (W1 & W2 & W3). destruct small_ckks as ([S1 S2] & _ & [S3 S4]). destruct betas as (B1 & _ & B3).
  assert (HC : (fromZ (zmu b + zerr b) <= IZR (if (zl b =? 0)%nat then 500 else 2 ^ 40))%R) by (eapply Rle_trans; [apply fromZ_le; exact HCap|rewrite fromZ_unit; lra]).
  apply (C59_inference N14 cnn14 scale 19 1 (IZR (2 ^ 47)) _ _ (half_pow 21) (half_pow 13) (INR 2 * half_pow 15) (half_pow 7) (half_pow 48) _ (fun l => IZR (if (l =? 0)%nat then 500 else 2 ^ 40)) mu eps 14 u us rs rk sks pk s r w oe o pt mask Mk ins st cnn14_const zn cnn14_fresh net image
    W3 N14_pow ltac:(lia) (numberscnn 2 ltac:(lia)) S3 S4 ltac:(rewrite B3; exact HU) ltac:(rewrite B3; exact HUS) O OE OD PO MW HSK HG EZ EI Hmu He0 HI HMask HW); trivial.
  - cbn [zA cnn14_const]. rewrite (fromZ_half 21) by (cbn; lia). cbn [Z.of_nat Pos.of_succ_nat Pos.succ]. unfold half_pow. reals. lra.
  - cbn [zR cnn14_const]. rewrite (fromZ_half 14) by (cbn; lia). cbn [Z.of_nat Pos.of_succ_nat Pos.succ INR]. unfold half_pow. reals. change (2 ^ 14) with 16384. lra.
  - cbn [zM cnn14_const]. rewrite (fromZ_half 7) by (cbn; lia). cbn [Z.of_nat Pos.of_succ_nat Pos.succ]. unfold half_pow. reals. lra.
  - cbn [zD cnn14_const]. rewrite (fromZ_half 48) by (cbn; lia). cbn [Z.of_nat Pos.of_succ_nat Pos.succ]. unfold half_pow. reals. lra.
  - unfold cnn14_fresh. rewrite fromZ_add, (fromZ_half 13), (fromZ_half 34) by (cbn; lia). cbn [Z.of_nat Pos.of_succ_nat Pos.succ]. assert (0 <= half_pow 13)%R by (unfold half_pow; reals; lra). lra.
Qed.
Print Assumptions C59_cnn14.

(** PN15QP880: scale 2^54, level 13; [cnn15_fresh] = 2^-18 + 2^-40. The 8192 packed values are repeated twice in the 16384 slots; the inference ends at level 7 *)
Definition cnn15_fresh : Z := 2 ^ 42 + 2 ^ 20.
Definition cnn15_const : zconst := ZC (2 ^ 33) (2 ^ 41) (3 * 2 ^ 36) (2 ^ 12) [(unit60, cnn15_fresh)].
Theorem C59_cnn15 : forall u us (rs : rlkset N15) (rk : rotset N15) sks (pk : string -> publicKey N15) (s r : string -> R N15)
  (w : nat -> nat -> nat -> IdSetModel.order) (oe : nat -> list string -> list string) (o : IdSetModel.order) (pt mask : poly N15) Mk mu eps (ins : list (kinput N15)) st zn (net : network) (image : nat -> nat -> CC),
  (forall i j, (j < 14)%nat -> wordsQP ckks15 (u i j)) -> (forall i j, (j < 14)%nat -> wordsQP ckks15 (us i j)) ->
  let crs := cnn_crs ckks15 15 u us in let scale := f_of_int (2 ^ 54) in
  (forall a b c, order_ok (w a b c)) -> (forall n, ord1_ok (oe n)) -> order_ok o -> pool_ok ckks15 st -> plevel pt = 13%nat ->
  mwf sks -> (forall id k, mget seq_dec sks id = Some k -> In id [modelOwner; dataOwner]) -> (forall id, In id [modelOwner; dataOwner] -> cnn_generated ckks15 19 1 crs rs rk sks (cnn_keyrots 15) pk id (s id) (r id)) ->
  map ki_z ins = cnn_inputs net image -> map ki_id ins = dataOwner :: repeat modelOwner 15 -> (0 <= mu)%R -> (0 <= eps <= half_pow 40)%R -> (forall x, In x ins -> exists M, kinput_ok ckks15 scale 19 1 M mu eps x) ->
  kplainreg ckks15 (mask, scale) (KP scale Mk 1 eps) (placed encodedMask) -> net_within (net_of zn) net image ->
  let b := nth 101 (cnn_calc 13 cnn15_const zn cnn15_fresh) (ZB 0 0 0) in cnn_calc_ok 13 cnn15_const zn cnn15_fresh = true -> zmu b + zerr b <= (if (zl b =? 0)%nat then 31 else 2 ^ 40) * unit60 ->
  exists st' c p, cnn_session ckks15 scale crs rs rk pk w oe ins mask scale st = Ok (st', c) /\ fpos (csc c) /\ Decrypt ckks15 o (cv c) sks pt = Ok p /\ plevel p = zl b /\
    exists X, centred ckks15 (zl b) (prows p) X /\ (forall Y, centred ckks15 (zl b) (prows p) Y -> Y = X) /\
      (forall d, (d < 10)%nat -> (cabs (csub (cscale (/ B2R (csc c)) (ckks_slot X d)) (cnn_out net image d)) <= fromZ (zerr b))%R) /\
      forall value delta d0, (d0 < 10)%nat -> (forall d, (d < 10)%nat -> (Rabs (value d - fst (cscale (/ B2R (csc c)) (ckks_slot X d))) <= delta)%R) ->
        let m := (fromZ (zerr b) + delta)%R in (-100 + m < fst (cnn_out net image d0))%R -> (forall d, (d < 10)%nat -> d <> d0 -> (fst (cnn_out net image d) + 2 * m < fst (cnn_out net image d0))%R) ->
        decide10 value = Z.of_nat d0.
Proof.
  intros u us rs rk sks pk s r w oe o pt mask Mk mu eps ins st zn net image HU HUS crs scale O OE OD PO PL MW HSK HG EZ EI Hmu [He0 He1] HI HMask HW b OK HCap.
  destruct C50_ckks_wf as (W1 & W2 & W3). destruct small_ckks as ([S1 S2] & _ & [S3 S4]). destruct betas as (B1 & _ & B3).
  assert (HC : (fromZ (zmu b + zerr b) <= IZR (if (zl b =? 0)%nat then 31 else 2 ^ 40))%R) by (eapply Rle_trans; [apply fromZ_le; exact HCap|rewrite fromZ_unit; lra]).
  apply (C59_inference N15 ckks15 scale 19 1 (IZR (2 ^ 54)) _ _ (half_pow 27) (half_pow 18) (INR 2 * half_pow 20) ((INR 2 + 1) * half_pow 24) (half_pow 48) _ (fun l => IZR (if (l =? 0)%nat then 31 else 2 ^ 40)) mu eps 15 u us rs rk sks pk s r w oe o pt mask Mk ins st cnn15_const zn cnn15_fresh net image
    W1 N15_pow ltac:(lia) (numbers15 2 ltac:(lia)) S1 S2 ltac:(rewrite B1; exact HU) ltac:(rewrite B1; exact HUS) O OE OD PO MW HSK HG EZ EI Hmu He0 HI HMask HW); trivial.
  - cbn [zA cnn15_const]. rewrite (fromZ_half 27) by (cbn; lia). cbn [Z.of_nat Pos.of_succ_nat Pos.succ]. unfold half_pow. reals. lra.
  - cbn [zR cnn15_const]. rewrite (fromZ_half 19) by (cbn; lia). cbn [Z.of_nat Pos.of_succ_nat Pos.succ INR]. unfold half_pow. reals. change (2 ^ 19) with 524288. lra.
  - cbn [zM cnn15_const]. replace (3 * 2 ^ 36) with (2 ^ 36 + 2 ^ 36 + 2 ^ 36) by reflexivity. rewrite !fromZ_add, (fromZ_half 24) by (cbn; lia). cbn [Z.of_nat Pos.of_succ_nat Pos.succ INR]. unfold half_pow. reals. lra.
  - cbn [zD cnn15_const]. rewrite (fromZ_half 48) by (cbn; lia). cbn [Z.of_nat Pos.of_succ_nat Pos.succ]. unfold half_pow. reals. lra.
  - unfold cnn15_fresh. rewrite fromZ_add, (fromZ_half 18), (fromZ_half 40) by (cbn; lia). cbn [Z.of_nat Pos.of_succ_nat Pos.succ]. assert (0 <= half_pow 18)%R by (unfold half_pow; reals; lra). lra.
Qed.
Print Assumptions C59_cnn15.

(** ** non-vacuity *)
(** for all CRS words, all ternary secrets and errors up to 19, and every network and image: keys, encodings, mask and evaluator as in the hypotheses exist *)
Theorem C59_nonvacuous : forall (u : Z -> nat -> polyQP N14) us (s r e : string -> R N14) (net : network) (image : nat -> nat -> CC) mu, (forall i j, (j < 7)%nat -> wordsQP cnn14 (u i j)) -> (forall i j, (j < 7)%nat -> wordsQP cnn14 (us i j)) ->
  (forall id, bnd (s id) 1) -> (forall id, bnd (r id) 1) -> (forall id, bnd (e id) 19) -> net_within (NB mu mu mu mu mu mu) net image -> let scale := f_of_int (2 ^ 47) in
  (exists (rs : rlkset N14) (rk : rotset N14) sks pk, mwf sks /\ (forall id k, mget seq_dec sks id = Some k -> In id [modelOwner; dataOwner]) /\
    forall id, In id [modelOwner; dataOwner] -> cnn_generated cnn14 19 1 (cnn_crs cnn14 14 u us) rs rk sks (cnn_keyrots 14) pk id (s id) (r id)) /\
  pool_ok cnn14 (NewEvaluator cnn14 : evalst N14) /\
  (exists ins : list (kinput N14), map ki_z ins = cnn_inputs net image /\ map ki_id ins = dataOwner :: repeat modelOwner 15 /\ forall x, In x ins -> exists M, kinput_ok cnn14 scale 19 1 M mu (half_pow 34) x) /\
  exists (mask : poly N14) Mk, kplainreg cnn14 (mask, scale) (KP scale Mk 1 (half_pow 34)) (placed encodedMask).
Proof.
  intros u us s r e net image mu HU HUS Hs Hr He HW scale. destruct C50_ckks_wf as (_ & _ & WF). destruct small_ckks as (_ & _ & [S1 S2]). destruct betas as (_ & _ & BT).
  destruct (float_pow 47 ltac:(lia)) as ((F1 & F2 & F3) & _). fold scale in F1, F2. assert (FP : fpos scale) by (split; [exact F2|rewrite F1; lra]).
  assert (EPS : (INR (N14 / 2) / B2R scale)%R = half_pow 34).
  { rewrite F1. assert (X : INR (N14 / 2) = 8192%R). { rewrite INR_IZR_INZ. replace (Z.of_nat (N14 / 2)) with 8192; [reflexivity|]. rewrite Nat2Z.inj_div, N14_Z. reflexivity. } rewrite X. unfold half_pow. change (2 ^ 47) with (2 ^ 34 * 8192). rewrite mult_IZR. assert (0 < IZR (2 ^ 34))%R by (apply IZR_lt; reflexivity). field. lra. }
  assert (HC : forall i, In i ([0; -1; -2] ++ cnn_keyrots 14) -> exists c, mget Z.eq_dec (cnn_crs cnn14 14 u us) i = Some c /\ crs_ok cnn14 c) by (apply (cnn_entries cnn14 WF 14 ltac:(lia) u us); rewrite BT; assumption).
  split; [|split; [|split]].
  - apply (keys_exist cnn14 WF (cnn_crs cnn14 14 u us) (cnn_keyrots 14) HC ltac:(intros i Hi; vm_compute in Hi; lia) 19 1 S1 S2 s r e Hs Hr He [modelOwner; dataOwner]).
  - apply NewEvaluator_pool_ok.
  - assert (ONE : forall id z, (forall j, (j < N14 / 2)%nat -> (cabs (z j) <= mu)%R) -> exists x : kinput N14, ki_id x = id /\ ki_z x = z /\ exists M, kinput_ok cnn14 scale 19 1 M mu (half_pow 34) x).
    { intros id z HM. destruct (encoded_exists cnn14 scale z mu WF FP HM) as (M & pt & HE). rewrite EPS in HE.
      assert (ST : is_sample cnn14 1 (s id) (rows_of cnn14 (s id))) by (apply (rows_of_sample cnn14 N14 1 (s id) WF (Hs id))).
      assert (SE : is_sample cnn14 19 (e id) (rows_of cnn14 (e id))) by (apply (rows_of_sample cnn14 N14 19 (e id) WF (He id))).
      exists (KIn N14 id z pt (rows_of cnn14 (s id)) (rows_of cnn14 (e id)) (rows_of cnn14 (e id))). split; [reflexivity|]. split; [reflexivity|]. exists M. split; [exact HE|]. exists (s id), (e id), (e id). split; [exact ST|]. split; exact SE. }
    assert (ALL : forall zs ids, length zs = length ids -> (forall n j, (n < length zs)%nat -> (cabs (nth n zs zslots j) <= mu)%R) -> exists ins : list (kinput N14), map ki_z ins = zs /\ map ki_id ins = ids /\ forall x, In x ins -> exists M, kinput_ok cnn14 scale 19 1 M mu (half_pow 34) x).
    { induction zs as [|z zs IH]; intros [|id ids] L HB; try discriminate L; [exists nil; repeat split; intros x []|]. destruct (ONE id z) as (x & X1 & X2 & X3); [intros j _; apply (HB 0%nat j); cbn; lia|].
      destruct (IH ids) as (ins & I1 & I2 & I3); [cbn in L; lia|intros n j Hn; apply (HB (S n) j); cbn; lia|]. exists (x :: ins). cbn [map]. rewrite X1, X2, I1, I2. split; [reflexivity|]. split; [reflexivity|]. intros y [<-|Hy]; [exact X3|apply I3; exact Hy]. }
    apply ALL; [rewrite inputs_len; reflexivity|]. intros n j Hn. rewrite inputs_len in Hn. eapply Rle_trans; [apply (packed_le _ _ _ HW n j Hn)|]. right. cbn [bImage bKernels bFC1 bB1 bFC2 bB2]. do 16 (destruct n as [|n]; [reflexivity|]). lia.
  - destruct (plain_exists cnn14 scale (placed encodedMask) 1 WF FP) as (M & [mask sc] & HK).
    + intros j _. unfold placed, encodedMask. destruct (_ =? 0)%nat; [|rewrite cabs_0; lra]. right. apply cabs_eq; cbn; lra.
    + rewrite EPS in HK. assert (sc = scale) by (destruct HK as (_ & _ & X & _); exact X). subst sc. exists mask, M. exact HK.
Qed.
Print Assumptions C59_nonvacuous.
(** the calculator accepts both sets: with |image| <= 1, kernels <= 2^-6, FC1 <= 2^-10, B1 and FC2 <= 2^-8, B2 <= 1/4 the set of the test ends at level 0 without overflow (worst case error 277: decryption is guaranteed,
    precision is not); with |image| <= 1, kernels <= 2^-4, FC1 <= 2^-8, B1 <= 2^-6, FC2 <= 2^-4, B2 <= 1 the larger set gives outputs up to 1034 with an error below 3, and with kernels <= 2^-5, FC1 <= 2^-9, B1 and FC2 <= 2^-6, B2 <= 1 outputs up to 6 with an error below 0.03 *)
Theorem C59_nonvacuous_calc :
  (let zn := ZN (2 ^ 60) (2 ^ 54) (2 ^ 50) (2 ^ 52) (2 ^ 52) (2 ^ 58) in let b := nth 101 (cnn_calc 6 cnn14_const zn cnn14_fresh) (ZB 0 0 0) in
   cnn_calc_ok 6 cnn14_const zn cnn14_fresh = true /\ zl b = 0%nat /\ zmu b + zerr b <= 280 * unit60) /\
  (let zn := ZN (2 ^ 60) (2 ^ 56) (2 ^ 52) (2 ^ 54) (2 ^ 56) (2 ^ 60) in let b := nth 101 (cnn_calc 13 cnn15_const zn cnn15_fresh) (ZB 0 0 0) in
   cnn_calc_ok 13 cnn15_const zn cnn15_fresh = true /\ zl b = 7%nat /\ zerr b <= 3 * unit60 /\ zmu b + zerr b <= 1040 * unit60) /\
  (let zn := ZN (2 ^ 60) (2 ^ 55) (2 ^ 51) (2 ^ 54) (2 ^ 54) (2 ^ 60) in let b := nth 101 (cnn_calc 13 cnn15_const zn cnn15_fresh) (ZB 0 0 0) in
   cnn_calc_ok 13 cnn15_const zn cnn15_fresh = true /\ zl b = 7%nat /\ zerr b * 100 <= 3 * unit60 /\ zmu b + zerr b <= 6 * unit60).
Proof. vm_compute. repeat split; discriminate. Qed.
Print Assumptions C59_nonvacuous_calc.
(** networks that decide: any hidden layer, and an output layer whose bias singles out class 3. For image, kernels, FC1 and B1 within 1, 1/32, 2^-9 and 1/64 the larger set has an error below 0.002, and the conditions of the decision hold with decoding errors up to 1/4 *)
Definition biased (K : nat -> nat -> nat -> CC) (F : nat -> nat -> CC) (B : nat -> CC) : network := Net K F B (fun _ _ => (0, 0)%R) (fun c => if (c =? 3)%nat then (1, 0)%R else (0, 0)%R).
Lemma tsum_0 f : (forall k, f k = (0, 0)%R) -> forall n, tsum n f = (0, 0)%R.
Proof.
  intros H n. unfold tsum. set (z := (0, 0)%R) at 1 2. assert (Z0 : cadd z z = z) by (unfold z, cadd; cbn; apply f_equal2; lra).
  induction (seq 0 n) as [|a l IH]; cbn [fold_left]; [reflexivity|]. rewrite H. fold z. rewrite Z0. exact IH.
Qed.
Lemma cmul_00 x : cmul x (0, 0)%R = (0, 0)%R. Proof. destruct x as [a c]. unfold cmul. cbn. apply f_equal2; lra. Qed.
Lemma fromZ_500 e : e * 500 <= unit60 -> (fromZ e * 500 <= 1)%R.
Proof.
  intros E. unfold fromZ. assert (0 < IZR unit60)%R by (apply IZR_lt; reflexivity). apply IZR_le in E. rewrite mult_IZR in E. apply Rmult_le_reg_r with (IZR unit60); [assumption|]. replace (IZR e / IZR unit60 * 500 * IZR unit60)%R with (IZR e * 500)%R by (field; lra). lra.
Qed.
Lemma biased_out K F B image d : cnn_out (biased K F B) image d = if (d =? 3)%nat then (1, 0)%R else (0, 0)%R.
Proof.
  unfold cnn_out. rewrite (tsum_0 _ (fun k => cmul_00 (square (hidden (biased K F B) image k)))). cbn [B2 biased]. destruct (d =? 3)%nat; unfold cadd; cbn; apply f_equal2; lra.
Qed.
Lemma biased_margin K F B image (x : RR) : (x * 500 <= 1)%R -> let net := biased K F B in
  let m := (x + 1 / 4)%R in (-100 + m < fst (cnn_out net image 3))%R /\ (forall d, (d < 10)%nat -> d <> 3%nat -> (fst (cnn_out net image d) + 2 * m < fst (cnn_out net image 3))%R).
Proof.
  intros ER net m. unfold net. rewrite (biased_out K F B image 3). cbn [Nat.eqb fst]. split; [unfold m; lra|]. intros d _ Hd. rewrite biased_out. destruct (Nat.eqb_spec d 3); [contradiction|]. cbn [fst]. unfold m. lra.
Qed.
Theorem C59_nonvacuous_decides : forall K F B image, (forall i j k, (cabs (K i j k) <= fromZ (2 ^ 55))%R) -> (forall i j, (cabs (F i j) <= fromZ (2 ^ 51))%R) -> (forall i, (cabs (B i) <= fromZ (2 ^ 54))%R) -> (forall i j, (cabs (image i j) <= fromZ (2 ^ 60))%R) ->
  let net := biased K F B in let zn := ZN (2 ^ 60) (2 ^ 55) (2 ^ 51) (2 ^ 54) 0 (2 ^ 60) in let b := nth 101 (cnn_calc 13 cnn15_const zn cnn15_fresh) (ZB 0 0 0) in
  net_within (net_of zn) net image /\ cnn_calc_ok 13 cnn15_const zn cnn15_fresh = true /\ zmu b + zerr b <= 2 ^ 40 * unit60 /\ (zl b =? 0)%nat = false /\
  (let m := (fromZ (zerr b) + 1 / 4)%R in (-100 + m < fst (cnn_out net image 3))%R /\ (forall d, (d < 10)%nat -> d <> 3%nat -> (fst (cnn_out net image d) + 2 * m < fst (cnn_out net image 3))%R)).
Proof.
  intros K F B image HK HF HB HI net zn b.
  split; [|split; [vm_compute; reflexivity|split; [vm_compute; discriminate|split; [vm_compute; reflexivity|apply biased_margin, fromZ_500; vm_compute; discriminate]]]].
  assert (Z60 : fromZ (2 ^ 60) = 1%R) by (unfold fromZ, unit60; field; apply not_0_IZR; discriminate). assert (Z0 : fromZ 0 = 0%R) by (unfold fromZ; lra).
  unfold net_within. cbn [net_of zn znImage znKernels znFC1 znB1 znFC2 znB2 bImage bKernels bFC1 bB1 bFC2 bB2 net biased kernels FC1 B1 FC2 B2].
  split; [exact HI|]. split; [exact HK|]. split; [exact HF|]. split; [exact HB|]. split; [intros; rewrite cabs_0, Z0; lra|].
  intros c. rewrite Z60. destruct (c =? 3)%nat; [right; apply cabs_eq; cbn; lra|rewrite cabs_0; lra].
Qed.
Print Assumptions C59_nonvacuous_decides.
