(** C42 (the reserved identity) and C43 (AddCRS). *)
From Verif Require Import Base IdSetModel KeySetModel NumTheory Negacyclic Ntt Word BasisExt BasisExtProofs Rows RlweModel SchemeSpec ExtProd ExtProps KeyGenModel Galois KeyGenProofs Instance CtModel CtSpec CtProofs EncDecProofs PropsEnc KeySwitchModel Digits KsLoops RotProofs MulProofs PropsKeySwitch IndexModel PropsIndex EncMsgModel.
From Coq Require Import Znumtheory.
Open Scope Z_scope.

(** ** C42 *)
Theorem C42_reserved : forall N pp o (pt : poly N) pk u e0 e1, pk_id pk = "0"%string -> EncryptMsgNew pp o pt pk u e0 e1 = Panic.
Proof. intros N pp o pt pk u e0 e1 H. unfold EncryptMsgNew, is_add. rewrite H. reflexivity. Qed.
Print Assumptions C42_reserved.

(** every other identity gives a ciphertext over {"0", id} that decrypts to the message plus the fresh error *)
Theorem C42_other_ids : forall N pp B B1 (s e u e0 e1 : R N) ss se su se0 se1 id crs c (o : IdSetModel.order) (pt out : poly N),
  wfp N pp -> small_ok pp B -> small_ok pp B1 -> order_ok o -> id <> "0"%string ->
  is_sample pp B1 s ss -> is_sample pp B1 u su -> is_sample pp B e se -> is_sample pp B e0 se0 -> is_sample pp B e1 se1 ->
  mget Z.eq_dec crs 0 = Some c -> crs_ok pp c -> wfplain pp pt ->
  let sk := genSecretKeyFromSampler pp id ss in
  exists pk ct p, GenPublicKey pp crs sk se = Ok pk /\ EncryptMsgNew pp (o 7%nat) pt pk su se0 se1 = Ok ct /\
    (forall x, In x (keys ct) <-> x = "0"%string \/ x = id) /\ Decrypt pp o ct [(id, sk)] out = Ok p /\
    (forall j, (j <= plevel pt)%nat -> (j <= plevel out)%nat ->
       eqm (mq (Qi pp j)) (row (prows p) j) (add (pvalue pp pt j) (fresh_error e0 u e e1 s))) /\
    bnd (fresh_error e0 u e e1 s) (B * (1 + 2 * Z.of_nat N * B1)).
Proof.
  intros N pp B B1 s e u e0 e1 ss se su se0 se1 id crs c o pt out WF SM SM1 O NI S1 S2 S3 S4 S5 GC CO WP sk.
  assert (EA : is_add is_new id = Ok [(id, tt)]) by (unfold is_add; destruct (string_dec id id0) as [->|]; [exfalso; apply NI; reflexivity|reflexivity]).
  pose proof (wf_Qpos _ _ WF) as QP0.
  destruct (C03_new_ciphertext N pp (o 7%nat) [(id, tt)] (maxLevel pp) WF) as (W1 & W2 & W3 & W4); [intros l; apply O|unfold maxLevel; lia|].
  set (ct0 := NewCiphertext (o 7%nat) [(id, tt)] (maxLevel pp) : ctT N) in *.
  assert (C0 : comp ct0 id0 = Pol (repeat R0 (S (maxLevel pp))) false).
  { destruct W1 as (_ & I0 & _). unfold comp. apply (mget_In_keys seq_dec) in I0. destruct (mget seq_dec ct0 id0) as [q|] eqn:E; [|congruence]. apply (W4 _ _ E). }
  destruct (C14_fresh N pp B B1 s e u e0 e1 ss se su se0 se1 id crs c o pt out ct0 false) as (pk & ct' & p & X1 & X2 & X3 & X4 & X5 & X6 & X7); trivial.
  - rewrite C0. split; [cbn [prows]; rewrite repeat_length; unfold maxLevel; lia|]. cbn [prows]. rewrite repeat_length. intros j Hj.
    unfold row. rewrite nth_repeat. apply canon_inr. apply canon_zero. apply (okQ pp WF). unfold maxLevel in Hj. lia.
  - rewrite C0. reflexivity.
  - apply W1.
  - intros x. rewrite W2. cbn. intuition.
  - exists pk, ct', p. split; [exact X1|]. split.
    + unfold EncryptMsgNew. replace (pk_id pk) with id. { rewrite EA. exact X2. }
      unfold GenPublicKey in X1. destruct (crs_get crs 0) as [c'|]; [|discriminate]. cbn [rbind] in X1. destruct (idx c' 0) as [a|]; [|discriminate]. injection X1 as <-. reflexivity.
    + split; [exact X3|]. split; [exact X5|]. split; [|exact X7]. intros j H1 H2. apply X6; [|exact H2]. rewrite C0. unfold plevel at 2. cbn [prows]. rewrite repeat_length.
      destruct WP as [[L1 L2] _]. unfold plevel, maxLevel in *. lia.
Qed.
Print Assumptions C42_other_ids.
(** the check is made by EncryptMsgNew only: Encrypt itself accepts the reserved identity *)
Theorem C42_encrypt_refuted : exists pk : publicKey 8, pk_id pk = "0"%string /\ Encrypt ex_pp (ex_pt false) pk (NewCiphertext (fun l => l) nil 2) (rows_of ex_pp ex_s) (rows_of ex_pp (ex_e 0)) (rows_of ex_pp (ex_e 1)) <> Panic.
Proof. exists (PK "0"%string (QP nil nil) (QP nil nil)). split; [reflexivity|]. discriminate. Qed.
Print Assumptions C42_encrypt_refuted.

(** ** C43 *)
(** a history of AddCRS calls: index and what the uniform samplers wrote *)
Definition add_crs_all {N} pp (crs : crsT N) (hist : list (Z * (nat -> polyQP N))) : crsT N := fold_left (fun c iu => AddCRS pp c (fst iu) (snd iu)) hist crs.
Lemma add_crs_other {N} pp hist : forall (crs : crsT N) k, ~ In k (map fst hist) -> mget Z.eq_dec (add_crs_all pp crs hist) k = mget Z.eq_dec crs k.
Proof.
  induction hist as [|[i u] hist IH]; intros crs k H; [reflexivity|]. cbn [add_crs_all fold_left fst snd]. fold (add_crs_all pp (AddCRS pp crs i u) hist).
  rewrite IH by (intros I; apply H; right; exact I). unfold AddCRS. rewrite mget_mset. destruct (Z.eq_dec k i) as [->|]; [exfalso; apply H; left; reflexivity|reflexivity].
Qed.
(** AddCRS calls for other indices change nothing: same keys, same rotations, same products, same conjugations *)
Theorem C43_other_indices : forall N pp (o : IdSetModel.order) (crs : crsT N) hist,
  let crs' := add_crs_all pp crs hist in
  (forall k sk smp, ~ In k (map fst hist) -> 0 <= k -> (2 <= N)%nat -> GenRotationKey pp crs' k sk smp = GenRotationKey pp crs k sk smp) /\
  (forall k ct rk out, ~ In (if k <? 0 then k mod Z.of_nat (N / 2) else k) (map fst hist) -> (2 <= N)%nat -> Rotate pp o crs' ct k rk out = Rotate pp o crs ct k rk out) /\
  (forall op0 op1 rs out, ~ In (-1) (map fst hist) -> MulAndRelin pp o crs' op0 op1 rs out = MulAndRelin pp o crs op0 op1 rs out) /\
  (forall ct ck out, ~ In (-2) (map fst hist) -> Conjugate pp o crs' ct ck out = Conjugate pp o crs ct ck out).
Proof.
  intros N pp o crs hist crs'. assert (G : forall k, ~ In k (map fst hist) -> crs_get crs' k = crs_get crs k) by (intros k H; unfold crs_get, crs'; rewrite add_crs_other by exact H; reflexivity).
  assert (BE : forall A B (x : res A) (f g : A -> res B), (forall a, f a = g a) -> rbind x f = rbind x g) by (intros A B [a|] f g H; [apply H|reflexivity]).
  split; [|split; [|split]].
  - intros k sk smp H K N2. unfold GenRotationKey. rewrite norm_rot_ok by assumption. destruct (Z.ltb_spec k 0); [lia|]. cbn [rbind]. rewrite (G k H). reflexivity.
  - intros k ct rk out H N2. unfold Rotate, RotateGen. apply BE. intros level. apply BE. intros ids. apply BE. intros lin. destruct (lin <? level)%nat; [reflexivity|].
    rewrite norm_rot_ok by assumption. cbn [rbind]. rewrite (G _ H). reflexivity.
  - intros op0 op1 rs out H. unfold MulAndRelin, vStage. rewrite (G _ H). reflexivity.
  - intros ct ck out H. unfold Conjugate. rewrite (G _ H). reflexivity.
Qed.
Print Assumptions C43_other_indices.

Section Alg.
  Context {N : nat}.
  Add Ring R_ring21 : (@R_ring_theory N).
  Lemma alg43 (e g s t a z : R N) : sub (add e (mul g s)) (mul t a) = sub (add e (mul g (add s (mul z t)))) (mul t (add a (mul g z))).
  Proof. ring. Qed.
End Alg.

(** What a rotation with an old key computes after AddCRS(k) stored a new entry that differs from the old one by z times the gadget:
    the rotation of the decryption under the changed secrets s + z t, t the secret rotated back *)
Theorem C43_recreated : forall N pp level lin fo (o : IdSetModel.order) crs (ct : ctT N) k rk out (s t : string -> R N) a u z B T,
  wfp N pp -> order_ok o -> small_ok pp B -> 0 <= k -> (level <= lin < length (Qm pp))%nat -> wfct pp lin false ct -> wfct pp level fo out ->
  (forall x, In x (keys out) <-> In x (keys ct)) -> mget Z.eq_dec crs k = Some a -> crs_ok pp a ->
  (forall id, In id (parties ct) -> has_rot_key pp crs rk k B T id (s id)) ->
  (forall id, galois (5 ^ k) (t id) = s id) ->
  (forall i, (i < beta pp (maxLevel pp))%nat -> wordsQP pp (u i)) ->
  (forall i m, (i < beta pp (maxLevel pp))%nat -> vi pp (maxLevel pp) m ->
     eqm (qmod pp m) (swk_val pp (crs_entry pp u) i m) (add (swk_val pp a i m) (mul (gad pp i m) z))) ->
  exists out' E, Rotate pp o (AddCRS pp crs k u) ct k rk out = Ok out' /\
    bnd E (Z.of_nat (length (parties ct)) * switch_noise N pp level (dig_bound pp level) B T) /\
    forall j, (j <= level)%nat -> eqm (mq (Qi pp j)) (phase pp s out' j) (add (galois (5 ^ k) (phase pp (fun id => add (s id) (mul z (t id))) ct j)) E).
Proof.
  intros N pp level lin fo o crs ct k rk out s t a u z B T WF O S K HL WC WO KS GA CA HK HT HU HZ. pose proof (beta_mono pp WF level ltac:(lia)) as BM.
  assert (CE : crs_ok pp (crs_entry pp u)) by (apply (crs_entry_ok pp WF); exact HU).
  assert (TE : forall id, t id = aut (galEl N k) (s id)).
  { intros id. rewrite <- (HT id), (galois_galEl (pow2N pp WF)) by assumption.
    rewrite aut_comp; [|destruct (wf_N _ _ WF); lia|apply (invGalEl_odd N (pow2N pp WF)), (galEl_odd N (pow2N pp WF))].
    rewrite (aut_mod _ 1); [rewrite aut_1; [reflexivity|destruct (wf_N _ _ WF); lia]|destruct (wf_N _ _ WF); lia|].
    apply (invGalEl_ok N (pow2N pp WF)), (galEl_odd N (pow2N pp WF)). }
  destruct (RotateGen_ok2 pp WF level lin fo o (AddCRS pp crs k u) None ct k rk out (fun id => add (s id) (mul z (t id))) s B T (dig_bound pp level) k (crs_entry pp u)) as (out' & E & X1 & X2 & X3 & X4 & X5); trivial; try lia.
  - destruct (Z.ltb_spec k 0); [lia|reflexivity].
  - unfold AddCRS. apply (mget_mset_eq Z.eq_dec).
  - intros id Hid. destruct (HK id Hid) as (sk & smp & e & key & H1 & H2 & H3 & H4 & H5).
    destruct (GenRotationKey_ok pp WF B e smp crs k a k a sk (s id) S H3 H1 GA) as (key' & X1 & X2 & X3 & X4 & X5); trivial.
    { destruct (Z.ltb_spec k 0); [lia|reflexivity]. }
    rewrite H4 in X1. injection X1 as <-.
    destruct (hoisted_digits pp level level lin ct None WF ltac:(lia) ltac:(lia) ltac:(lia) (fun _ => eq_refl) WC I id Hid) as (ds & D & D1 & D2).
    exists key, ds, D, e. split; [exact H5|]. split; [lia|]. split; [|split; [exact H2|split; [exact D1|exact D2]]].
    intros i Hi. split; [apply (H3 i); lia|]. intros m V.
    assert (V' : vi pp (maxLevel pp) m) by (destruct m; cbn in V |- *; [unfold maxLevel; lia|exact V]).
    destruct (X5 i ltac:(lia) m V') as [Y1 Y2]. split; [exact Y1|]. apply (repM_eqm _ _ _ _ Y2). fold (qmod pp m).
    rewrite (HZ i m ltac:(lia) V'), TE. apply eqm_eq. apply alg43.
  - exists out', E. split; [exact X1|]. split; [exact X4|exact X5].
Qed.
Print Assumptions C43_recreated.

(** such an entry is what the sampler may write, for every z *)
Lemma shifted_entry N pp (a : swk N) (z : R N) : wfp N pp -> crs_ok pp a ->
  exists u, (forall i, (i < beta pp (maxLevel pp))%nat -> wordsQP pp (u i)) /\
    forall i m, (i < beta pp (maxLevel pp))%nat -> vi pp (maxLevel pp) m -> eqm (qmod pp m) (swk_val pp (crs_entry pp u) i m) (add (swk_val pp a i m) (mul (gad pp i m) z)).
Proof.
  intros WF CA. pose proof (wf_Qpos _ _ WF) as QP0.
  set (v := fun i m => add (swk_val pp a i m) (mul (gad pp i m) z)).
  set (u := fun i => QP (tab (length (Qm pp)) (fun j => ntt (Qi pp j) (v i (MQ j)))) (tab (length (Pm pp)) (fun j => ntt (Pi pp j) (v i (MP j))))).
  assert (FU : forall i m, vi pp (maxLevel pp) m -> fqp (u i) m = ntt (md pp m) (v i m)).
  { intros i [j|j] V; cbn in V; cbn [fqp u qpQ qpP]; unfold row; rewrite nth_tab by (unfold maxLevel in V; lia); reflexivity. }
  assert (KM : forall m, vi pp (maxLevel pp) m -> okmod (N := N) (md pp m)) by (intros m V; apply (okmod_md pp WF (maxLevel pp)); [unfold maxLevel; lia|exact V]).
  exists u. split.
  - intros i Hi m V. rewrite (FU i m V). pose proof (KM m V) as K. apply (canon_wrd (md pp m)); [apply K|]. apply ntt_canon. exact K.
  - intros i m Hi V. pose proof (KM m V) as K. unfold swk_val at 1, crs_entry. rewrite nth_tab by exact Hi. rewrite (fqp_lvl1 pp) by exact V. rewrite (FU i m V). unfold qmod.
    symmetry. apply repM_unM_eq; [exact K|]. apply rep_mform; [exact K| |].
    + apply (canon_wrd (md pp m)); [apply K|]. apply ntt_canon. exact K.
    + apply rep_ntt. exact K.
Qed.

Definition ex43_ct : ctT 8 := [(id0, Pol (rows_of ex_pp (ex_poly [5])) false); ("alice"%string, Pol (rows_of ex_pp (ex_poly [100])) false)].
Definition ex43_out : ctT 8 := [(id0, zeroP 3); ("alice"%string, zeroP 3)].
Definition ex43_rk : rotset 8 := [("alice"%string, [(2, ex_rtk "alice")])].
(** the rotation was right, and after AddCRS on the same index it is wrong: no error within the bound explains the result *)
Theorem C43_recreated_refuted : exists (u : nat -> polyQP 8) (out1 out2 : ctT 8),
  let noise := Z.of_nat (length (parties ex43_ct)) * switch_noise 8 ex_pp 2 (dig_bound ex_pp 2) 3 1 in
  let right out := exists E, bnd E noise /\ forall j, (j <= 2)%nat -> eqm (mq (Qi ex_pp j)) (phase ex_pp (fun _ => ex_s) out j) (add (galois (5 ^ 2) (phase ex_pp (fun _ => ex_s) ex43_ct j)) E) in
  has_rot_key ex_pp ex_crs ex43_rk 2 3 1 "alice" ex_s /\
  Rotate ex_pp ex_ord ex_crs ex43_ct 2 ex43_rk ex43_out = Ok out1 /\ right out1 /\
  Rotate ex_pp ex_ord (AddCRS ex_pp ex_crs 2 u) ex43_ct 2 ex43_rk ex43_out = Ok out2 /\ ~ right out2.
Proof.
  assert (I2 : In 2 [0; -1; -2; 1; 2]) by (cbn; tauto). destruct (ex_crs_get 2 I2) as [GA CA].
  assert (SB : bnd ex_s 1) by (apply bnd_poly; [lia|reflexivity]).
  assert (SM : forall k, is_sample ex_pp 3 (ex_e k) (ex_smp k)) by (intros k; apply ex_e_sample).
  assert (HK : has_rot_key ex_pp ex_crs ex43_rk 2 3 1 "alice" ex_s).
  { exists (ex_sk "alice"), ex_smp, ex_e, (ex_rtk "alice"). split; [apply ex_sk_val|]. split; [exact SB|]. split; [intros k _; apply SM|]. split; [|reflexivity].
    destruct (GenRotationKey_ok ex_pp ex_wf 3 ex_e ex_smp ex_crs 2 _ 2 _ (ex_sk "alice") ex_s ex_small (fun k _ => SM k) (ex_sk_val "alice") GA eq_refl GA CA) as (key & X & _).
    unfold ex_rtk. rewrite X. reflexivity. }
  assert (WC : wfct ex_pp 2 false ex43_ct).
  { split; [unfold mwf; cbn; repeat constructor; cbn; intuition discriminate|]. split; [left; reflexivity|]. intros id p H.
    assert (E : exists l, p = Pol (rows_of ex_pp (ex_poly l)) false /\ forallb (fun z => Z.abs z <=? 100) l = true).
    { unfold ex43_ct in H. cbn [mget] in H. destruct (seq_dec id id0); [injection H as <-; exists [5]; split; reflexivity|].
      destruct (seq_dec id "alice"); [injection H as <-; exists [100]; split; reflexivity|discriminate]. }
    destruct E as (l & -> & BL). destruct (rows_of_sample ex_pp 8 100 (ex_poly l) ex_wf) as [_ S]; [apply bnd_poly; [lia|exact BL]|].
    split; [reflexivity|]. split; [reflexivity|]. intros j Hj. apply S. exact Hj. }
  assert (WO : wfct ex_pp 2 false ex43_out).
  { split; [unfold mwf; cbn; repeat constructor; cbn; intuition discriminate|]. split; [left; reflexivity|]. intros id p H.
    assert (E : p = zeroP 3) by (unfold ex43_out in H; cbn [mget] in H; destruct (seq_dec id id0); [congruence|destruct (seq_dec id "alice"); congruence]). subst p.
    split; [reflexivity|]. split; [reflexivity|]. intros j Hj. unfold zeroP, row. cbn [prows]. rewrite nth_tab by lia. apply canon_inr, canon_zero. apply (okQ ex_pp ex_wf). cbn. lia. }
  assert (PA : forall id, In id (parties ex43_ct) -> id = "alice"%string) by (intros id H; cbn in H; destruct H as [<-|[]]; reflexivity).
  assert (HK' : forall id, In id (parties ex43_ct) -> has_rot_key ex_pp ex_crs ex43_rk 2 3 1 id ex_s) by (intros id H; rewrite (PA id H); exact HK).
  assert (OO : order_ok ex_ord) by (intros n l; unfold ex_ord; destruct (Nat.even n); [apply Permutation_refl|apply Permutation_sym, Permutation_rev]).
  set (t := fun _ : string => aut (galEl 8 2) ex_s).
  assert (HT : forall id : string, galois (5 ^ 2) (t id) = ex_s) by (intros id; apply R_ext; intros i Hi; do 8 (destruct i as [|i]; [vm_compute; reflexivity|]); lia).
  destruct (shifted_entry 8 ex_pp (crs_entry ex_pp (ex_u 2)) R1 ex_wf CA) as (u & U1 & U2).
  destruct (C22_rotate 8 ex_pp 2 2 false ex_ord ex_crs ex43_ct 2 ex43_rk ex43_out (fun _ => ex_s) (crs_entry ex_pp (ex_u 2)) 3 1) as (out1 & E1 & A1 & _ & _ & A2 & A3);
    [exact ex_wf|exact OO|exact ex_small|lia|split; [lia|change (length (Qm ex_pp)) with 3%nat; lia]|exact WC|exact WO|intros x; reflexivity|exact GA|exact CA|exact HK'|].
  destruct (C43_recreated 8 ex_pp 2 2 false ex_ord ex_crs ex43_ct 2 ex43_rk ex43_out (fun _ => ex_s) t (crs_entry ex_pp (ex_u 2)) u R1 3 1) as (out2 & E2 & B1 & B2 & B3);
    [exact ex_wf|exact OO|exact ex_small|lia|split; [lia|change (length (Qm ex_pp)) with 3%nat; lia]|exact WC|exact WO|intros x; reflexivity|exact GA|exact CA|exact HK'|exact HT|exact U1|exact U2|].
  exists u, out1, out2. cbv zeta. split; [exact HK|]. split; [exact A1|]. split; [exists E1; split; assumption|]. split; [exact B1|].
  intros (E & C1 & C2). specialize (B3 2%nat ltac:(lia)). specialize (C2 2%nat ltac:(lia)). rewrite C2 in B3.
  assert (D : galois (5 ^ 2) (phase ex_pp (fun id => add ex_s (mul R1 (t id))) ex43_ct 2) = add (galois (5 ^ 2) (phase ex_pp (fun _ => ex_s) ex43_ct 2)) (galois (5 ^ 2) (mul (ex_poly [100]) (t EmptyString)))) by (apply R_ext; intros i Hi; do 8 (destruct i as [|i]; [vm_compute; reflexivity|]); lia).
  rewrite D in B3. pose proof (proj1 (eqm_co _ _ _) B3 0%nat ltac:(lia)) as Z0. rewrite !co_add in Z0.
  assert (C100 : co (galois (5 ^ 2) (mul (ex_poly [100]) (t EmptyString))) 0 = 100) by (vm_compute; reflexivity). rewrite C100 in Z0.
  assert (NB : Z.of_nat (length (parties ex43_ct)) * switch_noise 8 ex_pp 2 (dig_bound ex_pp 2) 3 1 = 41) by (vm_compute; reflexivity). rewrite NB in C1, B2.
  specialize (C1 0%nat ltac:(lia)). specialize (B2 0%nat ltac:(lia)). change (mq (Qi ex_pp 2)) with 257 in Z0. destruct Z0 as [y Hy].
  set (g0 := co (galois (5 ^ 2) (phase ex_pp (fun _ : string => ex_s) ex43_ct 2)) 0) in *. lia.
Qed.
Print Assumptions C43_recreated_refuted.
