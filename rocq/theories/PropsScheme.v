(** C11 (polynomials), C12, C13: property theorems for decomposition, external product and key generation. *)
From Verif Require Import Base NumTheory Negacyclic Ntt Word BasisSpec PropsBasis BasisExt BasisExtProofs DecompProofs Rows RlweModel SchemeSpec ExtProd ExtProps KeyGenModel Galois KeyGenProofs Instance.
From Coq Require Import Znumtheory.
Open Scope Z_scope.

(** ** C11: Decompose on a polynomial in either domain; [inv_form] is its coefficient form *)
Theorem C11_decompose : forall N pp level (a : poly N), wfp N pp -> (level < length (Qm pp))%nat ->
  (pntt a = false -> okrows pp level (prows a)) ->
  exists ds, Decompose pp level a = Ok ds /\ length ds = beta pp level /\
    forall k, (k < beta pp level)%nat -> exists D : R N,
      (** every row of digit k is the NTT of one and the same D *)
      (forall i, vi pp level i -> canon (md pp i) (fqp (nth k ds dQP) i) /\ eqm (qmod pp i) (intt (md pp i) (fqp (nth k ds dQP) i)) D) /\
      (** D is congruent to the input modulo every modulus of block k *)
      (forall j, (k * alpha pp <= j < (k + 1) * alpha pp)%nat -> (j <= level)%nat ->
         eqm (mq (Qi pp j)) D (if pntt a then intt (Qi pp j) (row (prows a) j) else row (prows a) j)) /\
      (** and almost reduced modulo the product of the block *)
      (forall x, (x < N)%nat -> almost_reduced (co D x) (product (firstn (Nat.min (alpha pp) (S level - k * alpha pp)) (skipn (k * alpha pp) (Qs pp))))).
Proof.
  intros N pp level a WF HL HA.
  assert (OR : okrows pp level (inv_form pp level a)).
  { destruct (pntt a) eqn:E; [apply inv_form_ok; assumption|]. unfold inv_form. rewrite E. apply HA. reflexivity. }
  eexists. split; [apply Decompose_ok; assumption|]. unfold digs. split; [rewrite map_length, seq_length; reflexivity|].
  intros k Hk. exists (digR pp level k (inv_form pp level a)). split; [|split].
  - intros i V. rewrite (nth_map' _ _ _ 0%nat) by (rewrite seq_length; assumption). rewrite seq_nth by assumption. cbn [plus].
    rewrite fqp_dig by assumption. pose proof (okmod_md pp WF level i HL V) as K. split; [apply ntt_canon; assumption|]. apply intt_ntt. apply K.
  - intros j Hb Hj. rewrite (digR_cong pp WF level k _ j HL Hk OR Hj Hb). unfold inv_form. destruct (pntt a); [|reflexivity].
    rewrite row_lvlQ1 by assumption. reflexivity.
  - intros x Hx. unfold digR. rewrite co_mkR by assumption. destruct (col_range pp level _ x HL OR Hx) as [C1 C2].
    rewrite product_prodl. unfold almost_reduced.
    apply (dig_int_ok (Qs pp) (alpha pp) level k _ (okbase_Q pp WF) (wf_alpha _ _ WF)); rewrite ?len_Qs; trivial. apply (beta_le pp WF); assumption.
Qed.
Print Assumptions C11_decompose.
Example C11_decompose_nonvacuous : wfp 8 ex_pp /\ beta ex_pp 2 = 2%nat /\ okrows ex_pp 2 (rows_of ex_pp (ex_poly [70; -3; 12; 96; 5; 0; 1; 40])).
Proof.
  split; [apply ex_wf|]. split; [vm_compute; reflexivity|]. split; [cbn; lia|]. intros j Hj.
  destruct (rows_of_sample ex_pp 8 96 (ex_poly [70; -3; 12; 96; 5; 0; 1; 40]) ex_wf) as [_ S]; [apply bnd_poly; [lia|reflexivity]|]. apply S. exact Hj.
Qed.

(** ** C12 *)
(** the noise: Beta digits times N B times the digit bound, plus the rounding of the division by P *)
Definition external_product_noise (pp : rparams) (N level : nat) (B : Z) : Z :=
  (Z.of_nat (beta pp level) * (Z.of_nat N * B * dig_bound pp level) + slack (Pprod pp)) / Pprod pp.

(** any gadget vector P g_k b + e_k *)
Theorem C12_external_product_any_key : forall N pp level (a : list (R N)) (bg : swk N) (b : R N) (e : nat -> R N) B,
  wfp N pp -> (level < length (Qm pp))%nat -> okrows pp level a -> (beta pp level <= length bg)%nat ->
  (forall k, (k < beta pp level)%nat -> mval pp level (nth k bg dQP) (fun i => add (e k) (mul (gad pp k i) b))) ->
  (forall k, (k < beta pp level)%nat -> bnd (e k) B) ->
  exists out E, ExternalProduct pp level (Pol a false) bg = Ok out /\ length out = S level /\ bnd E (external_product_noise pp N level B) /\
    forall j, (j <= level)%nat -> canon (Qi pp j) (row out j) /\ eqm (mq (Qi pp j)) (row out j) (add (mul (row a j) b) E).
Proof.
  intros N pp level a bg b e B WF HL A LB M HB.
  destruct (ext_prod_key pp WF level (Pol a false) bg b e B HL A LB M HB) as (out & E & X1 & X2 & X3 & X4 & X5).
  exists out, E. split; [exact X1|]. split; [exact X2|]. split; [exact X4|]. intros j Hj. split; [apply X3; assumption|apply X5; assumption].
Qed.
Print Assumptions C12_external_product_any_key.

(** the key GenSwitchingKey makes for the polynomial b, from errors bounded by B *)
Theorem C12_external_product : forall N pp level (a : list (R N)) (skIn : polyQP N) (b : R N) (e : nat -> R N) (smp : nat -> list (R N)) B,
  wfp N pp -> (level < length (Qm pp))%nat -> okrows pp level a -> mval pp (maxLevel pp) skIn (fun _ => b) -> small_ok pp B ->
  (forall k, (k < beta pp (maxLevel pp))%nat -> is_sample pp B (e k) (smp k)) ->
  exists out E, ExternalProduct pp level (Pol a false) (GenSwitchingKey pp skIn smp) = Ok out /\ length out = S level /\
    bnd E (external_product_noise pp N level B) /\
    forall j, (j <= level)%nat -> canon (Qi pp j) (row out j) /\ eqm (mq (Qi pp j)) (row out j) (add (mul (row a j) b) E).
Proof.
  intros N pp level a skIn b e smp B WF HL A M S HS.
  destruct (GenSwitchingKey_ok pp WF B e smp skIn b S HS M) as [LG G]. pose proof (beta_mono pp WF level HL) as BM.
  apply (C12_external_product_any_key N pp level a _ b e B WF HL A); [lia| |].
  - intros k Hk. apply mval_mono; [assumption|]. apply G. lia.
  - intros k Hk. apply (HS k). lia.
Qed.
Print Assumptions C12_external_product.
(** the same polynomial given in NTT form yields the same rows *)
Theorem C12_ntt_input : forall N pp level (c : list (R N)) (bg : swk N), wfp N pp -> (level < length (Qm pp))%nat -> length c = S level ->
  (forall j, (j <= level)%nat -> canon (Qi pp j) (row c j)) ->
  ExternalProduct pp level (Pol (lvlQ1 pp level ntt c) true) bg = ExternalProduct pp level (Pol c false) bg.
Proof.
  intros N pp level c bg WF HL LC C. rewrite (ext_prod_ntt pp WF level c bg HL) by (assumption || lia). rewrite firstn_all2 by lia. reflexivity.
Qed.
Print Assumptions C12_ntt_input.
Example C12_nonvacuous : wfp 8 ex_pp /\ mval ex_pp (maxLevel ex_pp) (sk_val (ex_sk "a")) (fun _ => ex_s) /\ small_ok ex_pp 3 /\
  (forall k, (k < beta ex_pp (maxLevel ex_pp))%nat -> is_sample ex_pp 3 (ex_e k) (rows_of ex_pp (ex_e k))) /\ external_product_noise ex_pp 8 2 3 = 33.
Proof.
  split; [apply ex_wf|]. split; [apply ex_sk_val|]. split; [apply ex_small|]. split; [intros; apply ex_e_sample|vm_compute; reflexivity].
Qed.

(** ** C13.  Keys stand for ([mval], Montgomery form) or are NTT rows of ([rep]) the stated combinations, modulo every Q_j and P_k.
    [swk_val c k i] is the polynomial digit k of CRS entry c stands for modulo modulus i. *)
Theorem C13_secret_key : forall N pp B s id smp, wfp N pp -> small_ok pp B -> is_sample pp B s smp ->
  mval pp (maxLevel pp) (sk_val (genSecretKeyFromSampler pp id smp)) (fun _ => s : R N).
Proof. intros N pp B s id smp WF. apply (genSecretKey_ok pp WF). Qed.
Print Assumptions C13_secret_key.

Theorem C13_public_key : forall N pp B e smp crs c sk (s : R N), wfp N pp -> small_ok pp B -> is_sample pp B e smp ->
  mval pp (maxLevel pp) (sk_val sk) (fun _ => s) -> mget Z.eq_dec crs 0 = Some c -> crs_ok pp c ->
  exists pk, GenPublicKey pp crs sk smp = Ok pk /\ pk_id pk = sk_id sk /\
    forall i, vi pp (maxLevel pp) i ->
      rep (md pp i) (fqp (pk0 pk) i) (sub e (mul s (raw_val pp (nth 0 c dQP) i))) /\ rep (md pp i) (fqp (pk1 pk) i) (raw_val pp (nth 0 c dQP) i).
Proof.
  intros N pp B e smp crs c sk s WF H1 H2 H3 H4 H5. destruct (GenPublicKey_ok pp WF B e smp crs c sk s H1 H2 H3 H4 H5) as (pk & X1 & X2 & X3 & X4).
  exists pk. split; [exact X1|]. split; [exact X2|]. intros i V. destruct (X4 i V) as (_ & _ & Y). exact Y.
Qed.
Print Assumptions C13_public_key.

Theorem C13_relinearisation_key : forall N pp B eb ed ev sb sd sv crs a u sk r (s rr : R N), wfp N pp -> small_ok pp B ->
  (forall k, (k < beta pp (maxLevel pp))%nat -> is_sample pp B (eb k) (sb k) /\ is_sample pp B (ed k) (sd k) /\ is_sample pp B (ev k) (sv k)) ->
  mval pp (maxLevel pp) (sk_val sk) (fun _ => s) -> mval pp (maxLevel pp) (sk_val r) (fun _ => rr) ->
  mget Z.eq_dec crs 0 = Some a -> mget Z.eq_dec crs (-1) = Some u -> crs_ok pp a -> crs_ok pp u ->
  exists rlk, GenRelinearizationKey pp crs sk r sb sd sv = Ok rlk /\ rlk_id rlk = sk_id sk /\
    length (rlk_b rlk) = beta pp (maxLevel pp) /\ length (rlk_d rlk) = beta pp (maxLevel pp) /\ length (rlk_v rlk) = beta pp (maxLevel pp) /\
    forall k, (k < beta pp (maxLevel pp))%nat ->
      mval pp (maxLevel pp) (nth k (rlk_b rlk) dQP) (fun i => sub (eb k) (mul s (swk_val pp a k i))) /\
      mval pp (maxLevel pp) (nth k (rlk_d rlk) dQP) (fun i => sub (add (ed k) (mul (gad pp k i) s)) (mul rr (swk_val pp a k i))) /\
      mval pp (maxLevel pp) (nth k (rlk_v rlk) dQP) (fun i => opp (add (add (ev k) (mul (gad pp k i) rr)) (mul s (swk_val pp u k i)))).
Proof. intros N pp B eb ed ev sb sd sv crs a u sk r s rr WF. apply (GenRelinearizationKey_ok pp WF). Qed.
Print Assumptions C13_relinearisation_key.

(** the mask of the rotation key: the secret under the inverse of X -> X^(5^k), i.e. the polynomial t with galois (5^k) t = s *)
Theorem C13_rotation_key : forall N pp B e smp crs k a sk (s : R N), wfp N pp -> small_ok pp B -> 0 <= k ->
  (forall j, (j < beta pp (maxLevel pp))%nat -> is_sample pp B (e j) (smp j)) -> mval pp (maxLevel pp) (sk_val sk) (fun _ => s) ->
  mget Z.eq_dec crs k = Some a -> crs_ok pp a ->
  exists rk t, GenRotationKey pp crs k sk smp = Ok rk /\ rtk_id rk = sk_id sk /\ rtk_idx rk = k /\ length (rtk_val rk) = beta pp (maxLevel pp) /\
    galois (5 ^ k) t = s /\
    forall j, (j < beta pp (maxLevel pp))%nat ->
      mval pp (maxLevel pp) (nth j (rtk_val rk) dQP) (fun i => sub (add (e j) (mul (gad pp j i) s)) (mul t (swk_val pp a j i))).
Proof.
  intros N pp B e smp crs k a sk s WF S K HS M G C.
  destruct (GenRotationKey_ok pp WF B e smp crs k a k a sk s S HS M G) as (rk & X1 & X2 & X3 & X4 & X5); trivial.
  { destruct (Z.ltb_spec k 0); [lia|reflexivity]. }
  exists rk, (aut (galEl N k) s). repeat (split; [assumption|]). split; [|assumption].
  rewrite (galois_galEl (pow2N pp WF)) by assumption. apply (aut_inv_gal (pow2N pp WF)). assumption.
Qed.
Print Assumptions C13_rotation_key.

(** conjugation key: a key of X -> X^-1 applied to the secret, under the secret *)
Theorem C13_conjugation_key : forall N pp B e smp crs a sk (s : R N), wfp N pp -> small_ok pp B ->
  (forall j, (j < beta pp (maxLevel pp))%nat -> is_sample pp B (e j) (smp j)) -> mval pp (maxLevel pp) (sk_val sk) (fun _ => s) ->
  mget Z.eq_dec crs (-2) = Some a -> crs_ok pp a ->
  exists ck, GenConjugationKey pp crs sk smp = Ok ck /\ cjk_id ck = sk_id sk /\ length (cjk_val ck) = beta pp (maxLevel pp) /\
    forall j, (j < beta pp (maxLevel pp))%nat ->
      mval pp (maxLevel pp) (nth j (cjk_val ck) dQP) (fun i => sub (add (e j) (mul (gad pp j i) (galois (-1) s))) (mul s (swk_val pp a j i))).
Proof.
  intros N pp B e smp crs a sk s WF S HS M G C.
  destruct (GenConjugationKey_ok pp WF B e smp crs a sk s S HS M G C) as (ck & X1 & X2 & X3 & X4).
  exists ck. repeat (split; [assumption|]). rewrite galois_conj. exact X4.
Qed.
Print Assumptions C13_conjugation_key.

(** the CRS entries NewParameters and AddCRS store satisfy [crs_ok], whatever words the uniform samplers wrote *)
Theorem C13_crs_entries : forall N pp (u : nat -> polyQP N), wfp N pp ->
  (forall k, (k < beta pp (maxLevel pp))%nat -> wordsQP pp (u k)) -> crs_ok pp (crs_entry pp u).
Proof. intros N pp u WF. apply (crs_entry_ok pp WF). Qed.
Print Assumptions C13_crs_entries.

Example C13_nonvacuous :
  (forall k, (k < beta ex_pp (maxLevel ex_pp))%nat -> is_sample ex_pp 3 (ex_e k) (rows_of ex_pp (ex_e k))) /\
  mval ex_pp (maxLevel ex_pp) (sk_val (ex_sk "a")) (fun _ => ex_s) /\
  Forall (fun i => exists a, mget Z.eq_dec ex_crs i = Some a /\ crs_ok ex_pp a) [0; -1; -2; 1; 2].
Proof.
  split; [intros; apply ex_e_sample|]. split; [apply ex_sk_val|].
  repeat (constructor; [eexists; split; [reflexivity|apply ex_crs_entry; lia]|]). constructor.
Qed.
