(** C20, C21, C22, C24: property theorems for multiplication with relinearisation, hoisting, rotation and conjugation.
    [phase pp s ct j] (CtSpec.v) is the decryption of ct modulo Q_j under the secrets s. *)
From Verif Require Import Base IdSetModel KeySetModel NumTheory Negacyclic Ntt Word BasisExt BasisExtProofs Rows RlweModel SchemeSpec ExtProd ExtProps KeyGenModel Galois KeyGenProofs Instance CtModel CtSpec CtProofs EncDecProofs PropsEnc KeySwitchModel Digits KsLoops RotProofs ConjProofs MulProofs.
From Coq Require Import Znumtheory Setoid.
Open Scope Z_scope.

(** the entry of a key set for party id is a key GenRelinearizationKey made for the secrets s and r, with errors at most B *)
Definition has_relin_key {N} (pp : rparams) (crs : crsT N) (rs : rlkset N) B T id (s r : R N) : Prop :=
  exists sk rk sb sd sv eb ed ev key,
    mval pp (maxLevel pp) (sk_val sk) (fun _ => s) /\ mval pp (maxLevel pp) (sk_val rk) (fun _ => r) /\ bnd s T /\ bnd r T /\
    (forall k, (k < beta pp (maxLevel pp))%nat -> is_sample pp B (eb k) (sb k) /\ is_sample pp B (ed k) (sd k) /\ is_sample pp B (ev k) (sv k)) /\
    GenRelinearizationKey pp crs sk rk sb sd sv = Ok key /\ mget seq_dec rs id = Some key.
Definition has_rot_key {N} (pp : rparams) (crs : crsT N) (ks : rotset N) k B T id (s : R N) : Prop :=
  exists sk smp e key,
    mval pp (maxLevel pp) (sk_val sk) (fun _ => s) /\ bnd s T /\ (forall j, (j < beta pp (maxLevel pp))%nat -> is_sample pp B (e j) (smp j)) /\
    GenRotationKey pp crs k sk smp = Ok key /\ rk_get ks id k = Ok key.
Definition has_conj_key {N} (pp : rparams) (crs : crsT N) (ks : conjset N) B T id (s : R N) : Prop :=
  exists sk smp e key,
    mval pp (maxLevel pp) (sk_val sk) (fun _ => s) /\ bnd s T /\ (forall j, (j < beta pp (maxLevel pp))%nat -> is_sample pp B (e j) (smp j)) /\
    GenConjugationKey pp crs sk smp = Ok key /\ ks_get ks id = Ok key.
(** h holds what Decompose returns at [level] for every party's component of op; None: not hoisted *)
Definition hoisted_at {N} (pp : rparams) level (op : ctT N) (h : option (hoisted N)) : Prop :=
  match h with
  | None => True
  | Some m => forall id, In id (parties op) -> exists ds, Decompose pp level (comp op id) = Ok ds /\ mget seq_dec m id = Some ds
  end.

Lemma has_relin_ok {N} pp crs (rs : rlkset N) B T id (s r : R N) a u : wfp N pp -> small_ok pp B ->
  mget Z.eq_dec crs 0 = Some a -> mget Z.eq_dec crs (-1) = Some u -> crs_ok pp a -> crs_ok pp u ->
  has_relin_key pp crs rs B T id s r -> exists key, rlk_get rs id = Ok key /\ relin_ok pp a u s r B T key.
Proof.
  intros WF S GA GU CA CU (sk & rk & sb & sd & sv & eb & ed & ev & key & H1 & H2 & H3 & H4 & H5 & H6 & H7).
  destruct (GenRelinearizationKey_ok pp WF B eb ed ev sb sd sv crs a u sk rk s r S H5 H1 H2 GA GU CA CU) as (key' & X1 & X2 & X3 & X4 & X5 & X6).
  rewrite H6 in X1. injection X1 as <-. exists key. split; [unfold rlk_get; rewrite H7; reflexivity|].
  exists eb, ed, ev. rewrite X3, X4, X5. repeat (split; [first [assumption|lia]|]). intros k K. destruct (H5 k K) as (S1 & S2 & S3).
  split; [apply S1|]. split; [apply S2|]. split; [apply S3|]. apply X6. assumption.
Qed.
(** digits obtained by hoisting at a level at least that of the operation *)
Lemma hoisted_digits {N} pp level lh lin (op : ctT N) h : wfp N pp -> (lin < length (Qm pp))%nat -> (level <= lh)%nat -> (lh <= lin)%nat -> (h = None -> lh = level) ->
  wfct pp lin false op -> hoisted_at pp lh op h -> party_digits pp level h op (dig_bound pp lh).
Proof.
  intros WF HL H1 H2 HN WO HH id Hid. apply in_parties in Hid as Hid'. destruct Hid' as [Nid Kid]. pose proof (wfct_comp pp _ _ _ _ WO Kid) as (L1 & F & I).
  destruct h as [m|].
  - destruct (HH id Hid) as (ds & D1 & D2). exists ds.
    assert (EI : inv_form pp lh (comp op id) = prows (comp op id)) by (unfold inv_form; rewrite F; reflexivity).
    destruct (Decompose_digits pp WF lh level (comp op id) H1 ltac:(lia)) as (ds' & A1 & A2 & A3).
    { rewrite EI. split; [lia|]. intros j Hj. apply I. lia. }
    rewrite EI in A3. rewrite D1 in A1. injection A1 as <-. eexists. split; [unfold hdig, hget; rewrite D2; reflexivity|exact A3].
  - rewrite (HN eq_refl) in *. apply (hdig_plain pp WF); [lia|assumption|exact F|]. split; [lia|]. intros j Hj. apply I. lia.
Qed.
Lemma hoisted_same {N} pp level lin (op : ctT N) h : wfp N pp -> (lin < length (Qm pp))%nat -> (level <= lin)%nat ->
  wfct pp lin false op -> hoisted_at pp level op h -> same_digits pp level h op /\ forall id, In id (parties op) -> hdig pp level None op id <> Panic.
Proof.
  intros WF HL H1 WO HH. 
  assert (X : forall id, In id (parties op) -> hdig pp level None op id = Decompose pp level (comp op id) /\ hdig pp level None op id <> Panic).
  { intros id Hid. apply in_parties in Hid as Hid'. destruct Hid' as [Nid Kid]. pose proof (wfct_comp pp _ _ _ _ WO Kid) as (L1 & F & I).
    destruct (hdig_plain pp WF level op id ltac:(lia) Kid F) as (ds & D & A1 & A2); [split; [lia|]; intros j Hj; apply I; lia|].
    split; [|rewrite A1; discriminate]. unfold hdig, cgetL. rewrite (cget_comp op id Kid). cbn [rbind].
    destruct (Nat.leb_spec (length (prows (comp op id))) level); [lia|]. reflexivity. }
  split; [|intros id Hid; apply X; assumption].
  intros id Hid. destruct (X id Hid) as [E _]. destruct h as [m|]; [|reflexivity]. rewrite E. destruct (HH id Hid) as (ds & D1 & D2).
  rewrite D1. unfold hdig, hget. rewrite D2. reflexivity.
Qed.

(** ** C20 *)
Theorem C20_mul_and_relin : forall N pp level l0 l1 (o : IdSetModel.order) crs (op0 op1 : ctT N) rs out (s r : string -> R N) a u B T,
  wfp N pp -> order_ok o -> small_ok pp B -> (level <= l0 < length (Qm pp))%nat -> (level <= l1 < length (Qm pp))%nat ->
  wfct pp l0 false op0 -> wfct pp l1 false op1 -> wfct pp level false out ->
  (forall x, In x (keys out) <-> In x (keys op0) \/ In x (keys op1)) ->
  mget Z.eq_dec crs 0 = Some a -> mget Z.eq_dec crs (-1) = Some u -> crs_ok pp a -> crs_ok pp u ->
  (forall id, In id (parties op0) \/ In id (parties op1) -> has_relin_key pp crs rs B T id (s id) (r id)) ->
  exists out' E, MulAndRelin pp o crs op0 op1 rs out = Ok out' /\ wfct pp level false out' /\
    (forall x, In x (keys out') <-> In x (keys op0) \/ In x (keys op1)) /\
    bnd E (mul_noise N pp level (length (parties op0)) (length (parties op1)) (dig_bound pp level) (dig_bound pp level) B T) /\
    forall j, (j <= level)%nat -> eqm (mq (Qi pp j)) (phase pp s out' j) (add (mul (phase pp s op0 j) (phase pp s op1 j)) E).
Proof.
  intros N pp level l0 l1 o crs op0 op1 rs out s r a u B T WF O S H0 H1 W0 W1 WO KS GA GU CA CU HK. rewrite MulAndRelin_is_hoisted.
  destruct (MulHoisted_ok pp WF level l0 l1 o crs op0 op1 None None rs out s r a u B T (dig_bound pp level) (dig_bound pp level)) as (out' & E & X1 & X2 & X3 & X4 & X5); trivial; try lia.
  - intros id Hid. apply (has_relin_ok pp crs); trivial. apply HK. assumption.
  - apply (hoisted_digits pp level level l0); trivial; try lia; try exact I.
  - apply (hoisted_digits pp level level l1); trivial; try lia; try exact I.
  - exists out', E. split; [exact X1|]. split; [exact X2|]. split; [intros x; rewrite X3; apply KS|]. split; assumption.
Qed.
Print Assumptions C20_mul_and_relin.

(** with operands hoisted at their own levels, as the CKKS evaluator does it (the output may have a smaller level) *)
Theorem C20_mul_and_relin_hoisted : forall N pp level l0 l1 (o : IdSetModel.order) crs (op0 op1 : ctT N) h0 h1 rs out (s r : string -> R N) a u B T,
  wfp N pp -> order_ok o -> small_ok pp B -> (level <= l0 < length (Qm pp))%nat -> (level <= l1 < length (Qm pp))%nat ->
  wfct pp l0 false op0 -> wfct pp l1 false op1 -> wfct pp level false out ->
  (forall x, In x (keys out) <-> In x (keys op0) \/ In x (keys op1)) ->
  mget Z.eq_dec crs 0 = Some a -> mget Z.eq_dec crs (-1) = Some u -> crs_ok pp a -> crs_ok pp u ->
  (forall id, In id (parties op0) \/ In id (parties op1) -> has_relin_key pp crs rs B T id (s id) (r id)) ->
  hoisted_at pp l0 op0 (Some h0) -> hoisted_at pp l1 op1 (Some h1) ->
  exists out' E, MulAndRelinHoisted pp o crs op0 op1 (Some h0) (Some h1) rs out = Ok out' /\ wfct pp level false out' /\
    (forall x, In x (keys out') <-> In x (keys op0) \/ In x (keys op1)) /\
    bnd E (mul_noise N pp level (length (parties op0)) (length (parties op1)) (dig_bound pp l0) (dig_bound pp l1) B T) /\
    forall j, (j <= level)%nat -> eqm (mq (Qi pp j)) (phase pp s out' j) (add (mul (phase pp s op0 j) (phase pp s op1 j)) E).
Proof.
  intros N pp level l0 l1 o crs op0 op1 h0 h1 rs out s r a u B T WF O S H0 H1 W0 W1 WO KS GA GU CA CU HK HH0 HH1.
  destruct (MulHoisted_ok pp WF level l0 l1 o crs op0 op1 (Some h0) (Some h1) rs out s r a u B T (dig_bound pp l0) (dig_bound pp l1)) as (out' & E & X1 & X2 & X3 & X4 & X5); trivial; try lia.
  - intros id Hid. apply (has_relin_ok pp crs); trivial. apply HK. assumption.
  - apply (hoisted_digits pp level l0 l0); trivial; try lia. discriminate.
  - apply (hoisted_digits pp level l1 l1); trivial; try lia. discriminate.
  - exists out', E. split; [exact X1|]. split; [exact X2|]. split; [intros x; rewrite X3; apply KS|]. split; assumption.
Qed.
Print Assumptions C20_mul_and_relin_hoisted.

(** ** C21: both, one or none of the operands hoisted (at the level of the output) *)
Theorem C21_mul_hoisted : forall N pp level l0 l1 fo (o : IdSetModel.order) crs (op0 op1 : ctT N) h0 h1 rs out,
  wfp N pp -> order_ok o -> (level <= l0 < length (Qm pp))%nat -> (level <= l1 < length (Qm pp))%nat ->
  wfct pp l0 false op0 -> wfct pp l1 false op1 -> wfct pp level fo out -> hoisted_at pp level op0 h0 -> hoisted_at pp level op1 h1 ->
  MulAndRelinHoisted pp o crs op0 op1 h0 h1 rs out = MulAndRelin pp o crs op0 op1 rs out.
Proof.
  intros N pp level l0 l1 fo o crs op0 op1 h0 h1 rs out WF O H0 H1 W0 W1 WO HH0 HH1.
  destruct (hoisted_same pp level l0 op0 h0 WF) as [A1 A2]; trivial; try lia. destruct (hoisted_same pp level l1 op1 h1 WF) as [B1 B2]; trivial; try lia.
  apply (MulHoisted_same pp o crs op0 op1 h0 h1 rs out level); trivial. apply (wfct_level pp _ _ _ WO).
Qed.
Print Assumptions C21_mul_hoisted.

Theorem C21_rotate_hoisted : forall N pp level lin fo (o : IdSetModel.order) crs (ct : ctT N) k h rk out,
  wfp N pp -> order_ok o -> (level <= lin < length (Qm pp))%nat -> wfct pp lin false ct -> wfct pp level fo out -> hoisted_at pp level ct (Some h) ->
  RotateHoisted pp o crs ct k h rk out = Rotate pp o crs ct k rk out.
Proof.
  intros N pp level lin fo o crs ct k h rk out WF O HL WC WO HH. destruct (hoisted_same pp level lin ct (Some h) WF) as [A1 A2]; trivial; try lia.
  unfold RotateHoisted, Rotate, RotateGen. rewrite (wfct_level pp _ _ _ WO). cbn [rbind].
  destruct (IDSetOf_ok (o 0%nat) ct) as (ids & I1 & _ & I3); [intros l; apply O|]. rewrite I1. cbn [rbind].
  destruct (ctLevel ct); cbn [rbind]; [|reflexivity]. destruct (_ <? level)%nat; [reflexivity|]. destruct (norm_rot N k) as [z|]; cbn [rbind]; [|reflexivity].
  destruct (cget ct id0); cbn [rbind]; [|reflexivity]. destruct (cget out id0); cbn [rbind]; [|reflexivity].
  match goal with |- rbind (rfold ?f ?l ?c) ?g = rbind (rfold ?f' ?l ?c) ?g => rewrite (rfold_ext f f' l); [reflexivity|] end.
  intros c id Hid. apply (Permutation_in _ (O 1%nat (keys ids))) in Hid.
  assert (Pid : In id (parties ct)) by (apply in_parties; apply I3; unfold is_has; apply mhas_In; assumption).
  destruct (rk_get rk id z); cbn [rbind]; [|reflexivity]. rewrite !(ExtOp_same pp level (Some h) ct id) by (first [apply A1|apply A2]; assumption).
  destruct (ExtOp pp level None ct id _); cbn [rbind]; [|reflexivity]. destruct (cget c id0); cbn [rbind]; [|reflexivity]. destruct (cwr c id0 _); cbn [rbind]; [|reflexivity].
  destruct (crs_get crs z); cbn [rbind]; [|reflexivity]. rewrite !(ExtOp_same pp level (Some h) ct id) by (first [apply A1|apply A2]; assumption). reflexivity.
Qed.
Print Assumptions C21_rotate_hoisted.

(** ** C22 *)
Theorem C22_rotate : forall N pp level lin fo (o : IdSetModel.order) crs (ct : ctT N) k rk out (s : string -> R N) a B T,
  wfp N pp -> order_ok o -> small_ok pp B -> 0 <= k -> (level <= lin < length (Qm pp))%nat -> wfct pp lin false ct -> wfct pp level fo out ->
  (forall x, In x (keys out) <-> In x (keys ct)) -> mget Z.eq_dec crs k = Some a -> crs_ok pp a ->
  (forall id, In id (parties ct) -> has_rot_key pp crs rk k B T id (s id)) ->
  exists out' E, Rotate pp o crs ct k rk out = Ok out' /\ wfct pp level false out' /\ (forall x, In x (keys out') <-> In x (keys ct)) /\
    bnd E (Z.of_nat (length (parties ct)) * switch_noise N pp level (dig_bound pp level) B T) /\
    forall j, (j <= level)%nat -> eqm (mq (Qi pp j)) (phase pp s out' j) (add (galois (5 ^ k) (phase pp s ct j)) E).
Proof.
  intros N pp level lin fo o crs ct k rk out s a B T WF O S K HL WC WO KS GA CA HK. pose proof (beta_mono pp WF level ltac:(lia)) as BM.
  apply (RotateGen_ok pp WF level lin fo o crs None ct k rk out s B T (dig_bound pp level) k a); trivial; try lia.
  - destruct (Z.ltb_spec k 0); [lia|reflexivity].
  - intros id Hid. destruct (HK id Hid) as (sk & smp & e & key & H1 & H2 & H3 & H4 & H5).
    destruct (GenRotationKey_ok pp WF B e smp crs k a k a sk (s id) S H3 H1 GA) as (key' & X1 & X2 & X3 & X4 & X5); trivial.
    { destruct (Z.ltb_spec k 0); [lia|reflexivity]. }
    rewrite H4 in X1. injection X1 as <-.
    destruct (hoisted_digits pp level level lin ct None WF ltac:(lia) ltac:(lia) ltac:(lia) (fun _ => eq_refl) WC I id Hid) as (ds & D & D1 & D2).
    exists key, ds, D, e. split; [exact H5|]. split; [lia|]. split; [|split; [exact H2|split; [exact D1|exact D2]]].
    intros i Hi. split; [apply (H3 i); lia|]. apply (mval_mono pp level); [lia|]. apply X5. lia.
Qed.
Print Assumptions C22_rotate.

(** ** C24 *)
Theorem C24_conjugate : forall N pp (o : IdSetModel.order) crs (ct : ctT N) ck out (s : string -> R N) a B T,
  wfp N pp -> order_ok o -> small_ok pp B -> wfct pp (maxLevel pp) false ct -> wfct pp (maxLevel pp) false out ->
  (forall x, In x (keys out) <-> In x (keys ct)) -> mget Z.eq_dec crs (-2) = Some a -> crs_ok pp a ->
  (forall id, In id (parties ct) -> has_conj_key pp crs ck B T id (s id)) ->
  exists out' E, Conjugate pp o crs ct ck out = Ok out' /\ wfct pp (maxLevel pp) false out' /\ (forall x, In x (keys out') <-> In x (keys ct)) /\
    bnd E (Z.of_nat (length (parties ct)) * switch_noise N pp (maxLevel pp) (dig_bound pp (maxLevel pp)) B T) /\
    forall j, (j <= maxLevel pp)%nat -> eqm (mq (Qi pp j)) (phase pp s out' j) (add (galois (-1) (phase pp s ct j)) E).
Proof.
  intros N pp o crs ct ck out s a B T WF O S WC WO KS GA CA HK.
  apply (Conjugate_ok pp WF false o crs ct ck out s B T a); trivial.
  intros id Hid. destruct (HK id Hid) as (sk & smp & e & key & H1 & H2 & H3 & H4 & H5).
  destruct (GenConjugationKey_ok pp WF B e smp crs a sk (s id) S H3 H1 GA CA) as (key' & X1 & X2 & X3 & X4).
  rewrite H4 in X1. injection X1 as <-. exists key, e. split; [exact H5|]. split; [lia|]. split; [exact H2|]. intros i Hi. split; [apply (H3 i Hi)|].
  rewrite galois_conj. apply X4. assumption.
Qed.
Print Assumptions C24_conjugate.
(** below the top level the code panics (ring.Permute runs over all moduli of the ring) *)
Theorem C24_conjugate_refuted : forall N pp level lin fi fo (o : IdSetModel.order) crs (ct : ctT N) ck out,
  order_ok o -> wfct pp lin fi ct -> wfct pp level fo out -> (lin < maxLevel pp)%nat \/ (level < maxLevel pp)%nat -> Conjugate pp o crs ct ck out = Panic.
Proof. intros N pp. apply (Conjugate_panics pp). Qed.
Print Assumptions C24_conjugate_refuted.

(** ** the hypotheses can be met: two parties, "alice" in one operand and both in the other *)
Definition ex_smp (k : nat) := rows_of ex_pp (ex_e k).
Definition ex_rlk (id : string) : relinKey 8 := match GenRelinearizationKey ex_pp ex_crs (ex_sk id) (ex_sk id) ex_smp ex_smp ex_smp with Ok k => k | Panic => RLK id nil nil nil end.
Definition ex_rtk (id : string) : rotKey 8 := match GenRotationKey ex_pp ex_crs 2 (ex_sk id) ex_smp with Ok k => k | Panic => RTK id 0 nil end.
Definition ex_cjk (id : string) : conjKey 8 := match GenConjugationKey ex_pp ex_crs (ex_sk id) ex_smp with Ok k => k | Panic => CJK id nil end.
Lemma ex_crs_get i : In i [0; -1; -2; 1; 2] -> mget Z.eq_dec ex_crs i = Some (crs_entry ex_pp (ex_u i)) /\ crs_ok ex_pp (crs_entry ex_pp (ex_u i)).
Proof. intros H. split; [|apply ex_crs_entry; cbn in H; lia]. cbn in H. repeat (destruct H as [<-|H]; [reflexivity|]). destruct H. Qed.
Example C20_nonvacuous : exists op0 op1 out : ctT 8, wfct ex_pp 2 false op0 /\ wfct ex_pp 2 false op1 /\ wfct ex_pp 1 false out /\
  parties op0 = ["alice"]%string /\ parties op1 = ["alice"; "bob"]%string /\ (forall x, In x (keys out) <-> In x (keys op0) \/ In x (keys op1)) /\
  let rs := map (fun id => (id, ex_rlk id)) ["bob"; "alice"]%string in
  (forall id, In id (parties op0) \/ In id (parties op1) -> has_relin_key ex_pp ex_crs rs 3 1 id ex_s ex_s) /\
  let rk := map (fun id => (id, [(2, ex_rtk id)])) ["bob"; "alice"]%string in
  (forall id, In id (parties op1) -> has_rot_key ex_pp ex_crs rk 2 3 1 id ex_s) /\
  let ck := map (fun id => (id, ex_cjk id)) ["bob"; "alice"]%string in
  (forall id, In id (parties op1) -> has_conj_key ex_pp ex_crs ck 3 1 id ex_s) /\
  exists h, hoisted_at ex_pp 1 op1 (Some h).
Proof.
  destruct (rows_of_sample ex_pp 8 41 (ex_poly [30; -41; 7; 0; 0; 12; 1; -5]) ex_wf) as [_ S]; [apply bnd_poly; [lia|reflexivity]|].
  set (cto := fun n l => map (fun id => (id, Pol (firstn n (prows (ex_pt false))) false)) (id0 :: l) : ctT 8).
  assert (WC : forall n l, (0 < n <= 3)%nat -> NoDup (id0 :: l) -> wfct ex_pp (n - 1) false (cto n l)).
  { intros n l Hn ND. unfold cto. split; [unfold mwf, keys; rewrite map_map; cbn; rewrite map_id; exact ND|]. split; [left; reflexivity|].
    intros id p H. assert (E : p = Pol (firstn n (prows (ex_pt false))) false) by (revert H; generalize (id0 :: l) as l'; induction l' as [|y l' IH]; cbn [map mget]; [discriminate|destruct (seq_dec id y); [congruence|exact IH]]). subst p.
    split; [cbn [prows]; rewrite firstn_length; cbn [length ex_pt prows rows_of]; unfold rows_of; rewrite tab_length; cbn; lia|]. split; [reflexivity|].
    intros j Hj. cbn [prows]. unfold row. rewrite nth_firstn by lia. apply S. cbn. lia. }
  exists (cto 3%nat ["alice"%string]), (cto 3%nat ["alice"; "bob"]%string), (cto 2%nat ["bob"; "alice"]%string).
  assert (ND : forall l, In l [["alice"]; ["alice"; "bob"]; ["bob"; "alice"]]%string -> NoDup (id0 :: l)).
  { intros l H. cbn in H. repeat (destruct H as [<-|H]; [repeat constructor; cbn; intuition discriminate|]). destruct H. }
  split; [apply (WC 3%nat); [lia|apply ND; cbn; tauto]|]. split; [apply (WC 3%nat); [lia|apply ND; cbn; tauto]|]. split; [apply (WC 2%nat); [lia|apply ND; cbn; tauto]|].
  split; [reflexivity|]. split; [reflexivity|]. split; [intros x; cbn; tauto|].
  assert (PB : forall id, In id ["alice"; "bob"]%string -> id = "alice"%string \/ id = "bob"%string) by (intros id H; cbn in H; intuition).
  assert (SB : bnd ex_s 1) by (apply bnd_poly; [lia|reflexivity]).
  assert (SM : forall k, is_sample ex_pp 3 (ex_e k) (ex_smp k)) by (intros k; apply ex_e_sample).
  assert (I0 : In 0 [0; -1; -2; 1; 2]) by (cbn; tauto). assert (I1 : In (-1) [0; -1; -2; 1; 2]) by (cbn; tauto). assert (I2 : In (-2) [0; -1; -2; 1; 2]) by (cbn; tauto). assert (I3 : In 2 [0; -1; -2; 1; 2]) by (cbn; tauto).
  cbv zeta. split; [|split; [|split]].
  - intros id Hid. assert (Hid' : In id ["alice"; "bob"]%string) by (cbn in Hid; cbn; tauto).
    exists (ex_sk id), (ex_sk id), ex_smp, ex_smp, ex_smp, ex_e, ex_e, ex_e, (ex_rlk id). split; [apply ex_sk_val|]. split; [apply ex_sk_val|]. split; [exact SB|]. split; [exact SB|].
    split; [intros k _; split; [|split]; apply SM|]. split.
    + destruct (GenRelinearizationKey_ok ex_pp ex_wf 3 ex_e ex_e ex_e ex_smp ex_smp ex_smp ex_crs _ _ (ex_sk id) (ex_sk id) ex_s ex_s ex_small (fun k _ => conj (SM k) (conj (SM k) (SM k))) (ex_sk_val id) (ex_sk_val id) (proj1 (ex_crs_get 0 I0)) (proj1 (ex_crs_get (-1) I1)) (proj2 (ex_crs_get 0 I0)) (proj2 (ex_crs_get (-1) I1))) as (key & X & _).
      unfold ex_rlk. rewrite X. reflexivity.
    + destruct (PB id Hid') as [->| ->]; reflexivity.
  - intros id Hid. exists (ex_sk id), ex_smp, ex_e, (ex_rtk id). split; [apply ex_sk_val|]. split; [exact SB|]. split; [intros k _; apply SM|]. split.
    + destruct (GenRotationKey_ok ex_pp ex_wf 3 ex_e ex_smp ex_crs 2 _ 2 _ (ex_sk id) ex_s ex_small (fun k _ => SM k) (ex_sk_val id) (proj1 (ex_crs_get 2 I3)) eq_refl (proj1 (ex_crs_get 2 I3)) (proj2 (ex_crs_get 2 I3))) as (key & X & _).
      unfold ex_rtk. rewrite X. reflexivity.
    + destruct (PB id Hid) as [->| ->]; reflexivity.
  - intros id Hid. exists (ex_sk id), ex_smp, ex_e, (ex_cjk id). split; [apply ex_sk_val|]. split; [exact SB|]. split; [intros k _; apply SM|]. split.
    + destruct (GenConjugationKey_ok ex_pp ex_wf 3 ex_e ex_smp ex_crs _ (ex_sk id) ex_s ex_small (fun k _ => SM k) (ex_sk_val id) (proj1 (ex_crs_get (-2) I2)) (proj2 (ex_crs_get (-2) I2))) as (key & X & _).
      unfold ex_cjk. rewrite X. reflexivity.
    + destruct (PB id Hid) as [->| ->]; reflexivity.
  - set (op1 := cto 3%nat ["alice"; "bob"]%string). assert (W1 : wfct ex_pp 2 false op1) by (apply (WC 3%nat); [lia|apply ND; cbn; tauto]).
    exists (map (fun id => (id, match Decompose ex_pp 1 (comp op1 id) with Ok d => d | Panic => nil end)) ["alice"; "bob"]%string).
    intros id Hid. destruct (hdig_plain ex_pp ex_wf 1 op1 id) as (ds & D & A1 & _); [cbn; lia|apply in_parties in Hid; apply Hid| | |].
    + apply in_parties in Hid. apply (wfct_comp ex_pp _ _ _ _ W1 (proj2 Hid)).
    + apply in_parties in Hid. destruct (wfct_comp ex_pp _ _ _ _ W1 (proj2 Hid)) as (L1 & _ & I). split; [lia|]. intros j Hj. apply I. lia.
    + assert (E : Decompose ex_pp 1 (comp op1 id) = Ok ds).
      { unfold hdig, cgetL in A1. rewrite (cget_comp op1 id) in A1 by (apply in_parties in Hid; apply Hid). cbn [rbind] in A1.
        apply in_parties in Hid. destruct (wfct_comp ex_pp _ _ _ _ W1 (proj2 Hid)) as (L1 & _). rewrite L1 in A1. exact A1. }
      exists ds. split; [exact E|]. destruct (PB id Hid) as [->| ->]; cbn [map mget]; unfold op1 in *; destruct (seq_dec _ _); try congruence; try (rewrite E; reflexivity).
Qed.
