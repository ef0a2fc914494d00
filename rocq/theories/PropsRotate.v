(** C23: RotateNew for every integer amount. *)
From Flocq Require Import Core BinarySingleNaN.
From Coq Require Import Znumtheory Setoid Morphisms Reals Lra.
From Verif Require Import Base IdSetModel IdSetSpec IdSetProofs KeySetModel NumTheory Negacyclic Ntt Word BasisExt BasisExtProofs Rows RlweModel KeyGenModel SchemeSpec ExtProd ExtProps Galois KeyGenProofs Instance CtModel CtSpec CtProofs EncDecProofs HeapModel HeapProofs PropsEnc KeySwitchModel Digits KsLoops RotProofs MulProofs PropsKeySwitch IndexModel PropsIndex FloatModel CkksFloat CkksModel FloatProofs CkksFloatProofs CkksProofs CkksRescale PropsCkks Slots PropsSlots.
Open Scope Z_scope.

(** the number of ones in the binary expansion *)
Fixpoint onesp (p : positive) : Z := match p with xH => 1 | xO p => onesp p | xI p => 1 + onesp p end.
Definition ones (k : Z) : Z := match k with Zpos p => onesp p | _ => 0 end.
Lemma ones_even r : 0 <= r -> ones (2 * r) = ones r. Proof. destruct r; intros; try reflexivity; lia. Qed.
Lemma ones_odd r : 0 <= r -> ones (2 * r + 1) = 1 + ones r. Proof. destruct r; intros; try reflexivity; lia. Qed.

Lemma rotDown_ok half : 0 < half -> forall fuel k, k <= Z.of_nat fuel -> rotDown fuel half k = Ok (if k <? half then k else k mod half).
Proof.
  intros H. induction fuel as [|n IH]; intros k F; cbn [rotDown]; destruct (Z.leb_spec half k) as [A|A].
  - lia.
  - destruct (Z.ltb_spec k half); [reflexivity|lia].
  - rewrite IH by lia. f_equal. destruct (Z.ltb_spec k half); [lia|]. destruct (Z.ltb_spec (k - half) half).
    + rewrite (Z.mod_eq k half) by lia. replace (k / half) with 1; [lia|]. apply (Z.div_unique_pos k half 1 (k - half)); lia.
    + replace (k - half) with (k + (-1) * half) by ring. apply Z_mod_plus_full.
  - destruct (Z.ltb_spec k half); [reflexivity|lia].
Qed.
Lemma rotNorm_ok N k : (2 <= N)%nat -> @rotNorm N k = Ok (k mod Z.of_nat (N / 2)).
Proof.
  intros H. assert (P : 0 < Z.of_nat (N / 2)) by (pose proof (Nat.div_le_mono 2 N 2 ltac:(lia) H); change (2 / 2)%nat with 1%nat in *; lia).
  unfold rotNorm. rewrite rotDown_ok by lia. cbn [rbind]. rewrite norm_loop_ok; [|exact P|lia]. f_equal.
  set (h := Z.of_nat (N / 2)) in *. destruct (Z.ltb_spec k h).
  - destruct (Z.ltb_spec k 0); [reflexivity|]. symmetry. apply Z.mod_small. lia.
  - destruct (Z.ltb_spec (k mod h) 0); [|reflexivity]. pose proof (Z.mod_pos_bound k h P). lia.
Qed.

Section Rot.
  Context {N : nat} (pp : rparams) (WF : wfp N pp).
  Notation R := (R N). Notation ct := (ctT N).
  Notation phase := (@phase N pp). Notation pvalue := (@pvalue N pp). Notation wfct := (@wfct N pp). Notation wfpoly := (@wfpoly N pp).
  Add Ring R_ring24 : (@R_ring_theory N).

  Lemma galois_comp j k (a : R) : 0 <= j -> 0 <= k -> galois (5 ^ j) (galois (5 ^ k) a) = galois (5 ^ (j + k)) a.
  Proof.
    intros J K. pose proof (pow2N pp WF) as P2. pose proof (N_pos N P2) as NP.
    rewrite !galois_galEl by (trivial; lia). rewrite aut_comp by (trivial; apply (invGalEl_odd N P2), (galEl_odd N P2)).
    rewrite <- galois_galEl by (trivial; lia). symmetry. apply galois_aut.
    - rewrite Z.odd_mul. rewrite !(invGalEl_odd N P2) by apply (galEl_odd N P2). reflexivity.
    - pose proof (gal_inv P2 j J) as A. pose proof (gal_inv P2 k K) as B.
      change (eqz (2 * Z.of_nat N) (5 ^ j * invGalEl N (galEl N j)) 1) in A. change (eqz (2 * Z.of_nat N) (5 ^ k * invGalEl N (galEl N k)) 1) in B.
      change (eqz (2 * Z.of_nat N) (5 ^ (j + k) * (invGalEl N (galEl N j) * invGalEl N (galEl N k))) 1). rewrite Z.pow_add_r by assumption.
      replace (5 ^ j * 5 ^ k * (invGalEl N (galEl N j) * invGalEl N (galEl N k))) with ((5 ^ j * invGalEl N (galEl N j)) * (5 ^ k * invGalEl N (galEl N k))) by ring.
      rewrite A, B. reflexivity.
  Qed.
  Lemma galois_add k (a b : R) : 0 <= k -> galois (5 ^ k) (add a b) = add (galois (5 ^ k) a) (galois (5 ^ k) b).
  Proof. intros K. pose proof (pow2N pp WF) as P2. rewrite !galois_galEl by trivial. apply aut_add. Qed.
  Lemma galois_bnd k (a : R) A : 0 <= k -> bnd a A -> bnd (galois (5 ^ k) a) A.
  Proof. intros K H. pose proof (pow2N pp WF) as P2. rewrite galois_galEl by trivial. apply aut_bnd. exact H. Qed.
  Lemma galois_eqm k q (a b : R) : 0 <= k -> eqm q a b -> eqm q (galois (5 ^ k) a) (galois (5 ^ k) b).
  Proof. intros K H. pose proof (pow2N pp WF) as P2. rewrite !galois_galEl by trivial. apply aut_eqm. exact H. Qed.

  Lemma Copy_ok o level fd (dst src : ct) : ord1_ok o -> wfct level fd dst -> wfct level false src -> (forall x, In x (keys dst) <-> In x (keys src)) ->
    exists c, Copy o dst src = Ok c /\ wfct level false c /\ (forall x, In x (keys c) <-> In x (keys src)) /\ forall s j, phase s c j = phase s src j.
  Proof.
    intros O WD WS K. unfold Copy.
    destruct (loop1 (fun c id => d <- cget c id ;; p <- cget src id ;; Ok (cset c id (polyCopy d p))) (fun id p => comp src id) (o (keys src)) dst) as (c & A & B & C & D).
    - apply (Permutation_NoDup (Permutation_sym (O (keys src)))). apply WS.
    - apply WD.
    - intros x Hx. apply K. apply (Permutation_in _ (O (keys src))). exact Hx.
    - intros d id Hid Wd Kd E. apply (Permutation_in _ (O (keys src))) in Hid.
      rewrite (cget_comp d) by (apply Kd, K; exact Hid). cbn [rbind]. rewrite (cget_comp src) by exact Hid. cbn [rbind]. do 2 f_equal. rewrite E.
      destruct (wfct_comp pp _ _ _ _ WD (proj2 (K id) Hid)) as (L1 & _). destruct (wfct_comp pp _ _ _ _ WS Hid) as (L2 & _).
      destruct (comp src id) as [rows fl]. cbn [prows] in L2. apply polyCopy_full. congruence.
    - exists c. split; [exact A|]. assert (E : forall x, In x (keys src) -> comp c x = comp src x).
      { intros x Hx. rewrite D. destruct (in_dec string_dec x (o (keys src))) as [|n]; [reflexivity|]. exfalso. apply n. apply (Permutation_in _ (Permutation_sym (O (keys src)))). exact Hx. }
      assert (KC : forall x, In x (keys c) <-> In x (keys src)) by (intros x; rewrite C; apply K).
      split; [|split; [exact KC|]].
      + apply (wfct_intro pp); [exact B|apply KC, WS|]. intros x Hx. apply KC in Hx. rewrite (E x Hx). apply (wfct_comp pp _ _ _ _ WS Hx).
      + intros s j. apply (phase_eq pp); [exact B|apply WS|exact KC|]. intros x Hx. rewrite E; [reflexivity|]. destruct Hx as [->|Hx]; [apply WS|apply KC; exact Hx].
  Qed.
  Lemma parties_len (c d : ct) : mwf c -> mwf d -> (forall x, In x (keys c) <-> In x (keys d)) -> length (parties c) = length (parties d).
  Proof.
    intros A B K. apply Permutation_length. apply NoDup_Permutation; [apply parties_nodup; exact A|apply parties_nodup; exact B|]. intros x. rewrite !in_parties, K. reflexivity.
  Qed.

  (** a usable rotation key for amount k for every party of c *)
  Definition rot_ready (crs : crsT N) (rk : rotset N) (s : string -> R) B T (c : ct) (k : Z) : Prop :=
    (exists a, mget Z.eq_dec crs k = Some a /\ crs_ok pp a) /\ forall id, In id (parties c) -> has_rot_key pp crs rk k B T id (s id).

  Lemma rotChain_ok (o : nat -> IdSetModel.order) crs rk (s : string -> R) B T level : (forall n, order_ok (o n)) -> small_ok pp B -> (level < length (Qm pp))%nat ->
    forall fuel k r (tmp out : ct), 0 < k -> 0 < r -> r <= Z.of_nat fuel -> wfct level false tmp -> wfct level false out -> (forall x, In x (keys out) <-> In x (keys tmp)) ->
    (forall i, 0 <= i -> Z.testbit r i = true -> rot_ready crs rk s B T tmp (k * 2 ^ i)) ->
    exists v E, rotChain pp o crs fuel k r rk tmp out = Ok v /\ wfct level false v /\ (forall x, In x (keys v) <-> In x (keys tmp)) /\
      bnd E (ones r * (Z.of_nat (length (parties tmp)) * switch_noise N pp level (dig_bound pp level) B T)) /\
      forall j, (j <= level)%nat -> eqm (mq (Qi pp j)) (phase s v j) (add (galois (5 ^ (k * r)) (phase s tmp j)) E).
  Proof.
    intros O SM HL. induction fuel as [|fuel IH]; intros k r tmp out HK HR HF WT WO KO RR; [lia|].
    cbn [rotChain]. destruct (Z.ltb_spec 0 r) as [_|]; [|lia]. pose proof (Z.mod_pos_bound r 2 ltac:(lia)) as MB. pose proof (Z.div_mod r 2 ltac:(lia)) as DM.
    assert (R2 : 0 <= r / 2) by (apply Z.div_pos; lia).
    destruct (Z.eqb_spec (r mod 2) 0) as [E0|E1]; cbn [negb].
    - cbn [rbind]. rewrite E0, Z.add_0_r in DM. set (h := r / 2) in *.
      destruct (IH (k * 2) h tmp out ltac:(lia) ltac:(lia) ltac:(lia) WT WO KO) as (v & E & A1 & A2 & A3 & A4 & A5).
      { intros i Hi Ti. replace (k * 2 * 2 ^ i) with (k * 2 ^ (i + 1)) by (rewrite Z.pow_add_r by lia; change (2 ^ 1) with 2; ring).
        apply RR; [lia|]. rewrite DM. replace (i + 1) with (Z.succ i) by lia. rewrite Z.testbit_even_succ by assumption. exact Ti. }
      exists v, E. split; [exact A1|]. split; [exact A2|]. split; [exact A3|]. split; [rewrite DM, ones_even by lia; exact A4|].
      intros j Hj. replace (k * r) with (k * 2 * h) by (rewrite DM; ring). apply A5. exact Hj.
    - assert (r mod 2 = 1) as E by lia. rewrite E in DM. set (h := r / 2) in *.
      destruct (RR 0 ltac:(lia)) as [(a & GA & CA) HKs]. { rewrite DM. apply Z.testbit_odd_0. }
      rewrite Z.pow_0_r, Z.mul_1_r in GA, HKs.
      destruct (C22_rotate N pp level level false (o fuel) crs tmp k rk out s a B T WF (O fuel) SM ltac:(lia) ltac:(lia) WT WO KO GA CA HKs) as (out1 & E2 & B1 & B2 & B3 & B4 & B5).
      rewrite B1. cbn [rbind]. destruct (Copy_ok (o fuel 9%nat) level false tmp out1 (O fuel 9%nat) WT B2) as (tmp1 & T1 & T2 & T3 & T4). { intros x. rewrite B3. reflexivity. }
      rewrite T1. cbn [rbind].
      destruct (Z.eq_dec h 0) as [H0|H0].
      + rewrite H0 in *. assert (RE : r = 1) by lia. subst r.
        assert (Y : rotChain pp o crs fuel (k * 2) 0 rk tmp1 out1 = Ok out1) by (destruct fuel; reflexivity). rewrite Y.
        exists out1, E2. split; [reflexivity|]. split; [exact B2|]. split; [exact B3|]. split; [cbn [ones onesp]; rewrite Z.mul_1_l; exact B4|]. rewrite Z.mul_1_r. exact B5.
      + assert (KT : forall x, In x (keys tmp1) <-> In x (keys tmp)) by (intros x; rewrite T3; apply B3).
        destruct (IH (k * 2) h tmp1 out1 ltac:(lia) ltac:(lia) ltac:(lia) T2 B2) as (v & E3 & A1 & A2 & A3 & A4 & A5).
        { intros x. rewrite T3. reflexivity. }
        { intros i Hi Ti. replace (k * 2 * 2 ^ i) with (k * 2 ^ (i + 1)) by (rewrite Z.pow_add_r by lia; change (2 ^ 1) with 2; ring).
          destruct (RR (i + 1)) as [X Y]; [lia| |].
          - rewrite DM. replace (i + 1) with (Z.succ i) by lia. rewrite Z.testbit_odd_succ by assumption. exact Ti.
          - split; [exact X|]. intros id Hid. apply Y. apply in_parties. apply in_parties in Hid. rewrite <- KT. exact Hid. }
        exists v, (add (galois (5 ^ (k * 2 * h)) E2) E3). split; [exact A1|]. split; [exact A2|]. split; [intros x; rewrite A3; apply KT|]. split.
        * rewrite (parties_len tmp1 tmp) in A4 by (first [apply T2|apply WT|exact KT]). rewrite DM, ones_odd by lia. rewrite Z.mul_add_distr_r, Z.mul_1_l.
          apply bnd_add; [apply galois_bnd; [nia|exact B4]|exact A4].
        * intros j Hj. eapply eqm_trans; [apply A5; exact Hj|]. rewrite T4.
          replace (add (galois (5 ^ (k * r)) (phase s tmp j)) (add (galois (5 ^ (k * 2 * h)) E2) E3)) with (add (add (galois (5 ^ (k * r)) (phase s tmp j)) (galois (5 ^ (k * 2 * h)) E2)) E3) by ring.
          apply eqm_add; [|apply eqm_refl]. eapply eqm_trans; [apply galois_eqm; [nia|apply B5; exact Hj]|].
          rewrite galois_add by nia. rewrite galois_comp by nia. replace (k * 2 * h + k) with (k * r) by (rewrite DM; ring). apply eqm_refl.
  Qed.
End Rot.

(** ** C23 *)
(** the amounts whose keys RotateNew uses for the normalised amount r *)
Definition used_index {N} (crs : crsT N) (r k : Z) : Prop :=
  (mget Z.eq_dec crs r <> None /\ k = r) \/ (mget Z.eq_dec crs r = None /\ exists i, 0 <= i /\ Z.testbit r i = true /\ k = 2 ^ i).
Definition rot_count {N} (crs : crsT N) (r : Z) : Z := if r =? 0 then 0 else match mget Z.eq_dec crs r with Some _ => 1 | None => ones r end.

Theorem C23_rotate_new : forall N pp (o : nat -> IdSetModel.order) crs (c : ckct N) k rk (s : string -> R N) B T level, wfp N pp -> (forall n, order_ok (o n)) -> small_ok pp B ->
  (level < length (Qm pp))%nat -> wfct pp level false (cv c) ->
  let r := k mod Z.of_nat (N / 2) in
  (forall i, r <> 0 -> used_index crs r i -> exists a, mget Z.eq_dec crs i = Some a /\ crs_ok pp a) ->
  (forall i id, r <> 0 -> used_index crs r i -> In id (parties (cv c)) -> has_rot_key pp crs rk i B T id (s id)) ->
  exists v E, RotateNew pp o crs c k rk = Ok (CK v (csc c)) /\ wfct pp level false v /\ (forall x, In x (keys v) <-> In x (keys (cv c))) /\
    bnd E (rot_count crs r * (Z.of_nat (length (parties (cv c))) * switch_noise N pp level (dig_bound pp level) B T)) /\
    forall j, (j <= level)%nat -> eqm (mq (Qi pp j)) (phase pp s v j) (add (galois (5 ^ r) (phase pp s (cv c) j)) E).
Proof.
  intros N pp o crs c k rk s B T level WF O SM HL W r HC HK. unfold RotateNew.
  pose proof (proj1 (wf_N _ _ WF)) as N2.
  destruct (IDSetOf_ok (o 0%nat 1%nat) (cv c)) as (ids & I1 & _ & I3); [intros l; apply O|]. rewrite I1. cbn [rbind]. rewrite (wfct_level pp _ _ _ W). cbn [rbind].
  destruct (C03_new_ciphertext N pp (o 0%nat 2%nat) ids level WF (fun l => O 0%nat 2%nat l) HL) as (NW & NK & _). set (out := NewCiphertext (o 0%nat 2%nat) ids level) in *.
  assert (KO : forall x, In x (keys out) <-> In x (keys (cv c))).
  { intros x. rewrite NK. assert (X : In x (keys ids) <-> x <> id0 /\ In x (keys (cv c))) by (rewrite <- I3; unfold is_has; rewrite mhas_In; reflexivity). rewrite X.
    split; [intros [->|H]; [apply W|tauto]|]. intros H. destruct (string_dec x id0); tauto. }
  unfold rotate. rewrite rotNorm_ok by exact N2. cbn [rbind]. fold r.
  assert (R0' : 0 <= r) by (apply Z.mod_pos_bound; pose proof (Nat.div_le_mono 2 N 2 ltac:(lia) N2); change (2 / 2)%nat with 1%nat in *; lia).
  unfold rot_count. destruct (Z.eqb_spec r 0) as [E|NE].
  - destruct (Copy_ok pp (o 0%nat 0%nat) level false out (cv c) (O 0%nat 0%nat) NW W KO) as (v & A & V1 & V2 & V3). rewrite A. cbn [rbind].
    exists v, R0. split; [reflexivity|]. split; [exact V1|]. split; [exact V2|]. split; [intros i Hi; rewrite co_R0; lia|].
    intros j Hj. rewrite V3, E. apply eqm_eq. rewrite Z.pow_0_r.
    rewrite (galois_aut 1 1) by (try reflexivity; exists 0; ring). rewrite aut_1 by lia. apply R_ext. intros i Hi. rewrite co_add, co_R0. ring.
  - destruct (mget Z.eq_dec crs r) as [a|] eqn:G.
    + destruct (HC r NE) as (a' & GA & CA); [left; split; [congruence|reflexivity]|].
      destruct (C22_rotate N pp level level false (o 0%nat) crs (cv c) r rk out s a' B T WF (O 0%nat) SM R0' ltac:(lia) W NW KO GA CA) as (v & E & A1 & A2 & A3 & A4 & A5).
      { intros id Hid. apply HK; [exact NE| |exact Hid]. left. split; [congruence|reflexivity]. }
      rewrite A1. cbn [rbind]. exists v, E. split; [reflexivity|]. split; [exact A2|]. split; [exact A3|]. split; [rewrite Z.mul_1_l; exact A4|exact A5].
    + destruct (CopyNew_ok (o 0%nat 0%nat) (cv c) (fun l => O 0%nat 0%nat l) (proj1 W) (proj1 (proj2 W))) as (tmp & A & T1 & T2). rewrite A. cbn [rbind].
      assert (WT : wfct pp level false tmp) by (apply (wfct_ext pp level false (cv c)); trivial).
      assert (KT : forall x, In x (keys tmp) <-> In x (keys (cv c))) by (intros x; rewrite <- !(mget_In_keys seq_dec), T2; reflexivity).
      assert (PT : forall s j, phase pp s tmp j = phase pp s (cv c) j).
      { intros s' j. apply (phase_eq pp); [exact T1|apply W|exact KT|]. intros x Hx. unfold comp. rewrite T2. reflexivity. }
      destruct (rotChain_ok pp WF o crs rk s B T level O SM HL (Z.to_nat r) 1 r tmp out ltac:(lia) ltac:(lia) ltac:(lia) WT NW) as (v & E & A1 & A2 & A3 & A4 & A5).
      { intros x. rewrite KO, KT. reflexivity. }
      { intros i Hi Ti. rewrite Z.mul_1_l. assert (U : used_index crs r (2 ^ i)) by (right; split; [exact G|exists i; repeat split; assumption]).
        split; [apply HC; assumption|]. intros id Hid. apply HK; [exact NE|exact U|]. apply in_parties. apply in_parties in Hid. rewrite <- KT. exact Hid. }
      rewrite A1. cbn [rbind]. exists v, E. split; [reflexivity|]. split; [exact A2|]. split; [intros x; rewrite A3; apply KT|].
      split; [rewrite <- (parties_len tmp (cv c)) by (first [exact T1|apply W|exact KT]); exact A4|].
      intros j Hj. eapply eqm_trans; [apply A5; exact Hj|]. rewrite Z.mul_1_l, PT. apply eqm_refl.
Qed.
Print Assumptions C23_rotate_new.

(** with the default CRS and default rotation keys every integer amount works; with m the plaintext of c, slot j of the result's plaintext (up to the
    noise E) is slot j + k mod N/2 of m, for negative k as well *)
Theorem C23_default : forall N pp logN (u : Z -> nat -> polyQP N) (o : nat -> IdSetModel.order) (c : ckct N) k rk (s : string -> R N) B T level,
  wfp N pp -> (forall n, order_ok (o n)) -> small_ok pp B -> N = (2 ^ logN)%nat -> (0 < logN)%nat ->
  (forall i j, default_index N i -> (j < beta pp (maxLevel pp))%nat -> wordsQP pp (u i j)) -> (level < length (Qm pp))%nat -> wfct pp level false (cv c) ->
  (forall i id, default_index N i -> In id (parties (cv c)) -> has_rot_key pp (NewCRS pp logN u) rk i B T id (s id)) ->
  exists v E, RotateNew pp o (NewCRS pp logN u) c k rk = Ok (CK v (csc c)) /\ wfct pp level false v /\ (forall x, In x (keys v) <-> In x (keys (cv c))) /\
    bnd E (ones (k mod Z.of_nat (N / 2)) * (Z.of_nat (length (parties (cv c))) * switch_noise N pp level (dig_bound pp level) B T)) /\
    forall m, decrypts pp s (cv c) level m -> exists m', decrypts pp s v level (add m' E) /\
      forall j, (j < N / 2)%nat -> ckks_slot m' j = ckks_slot m (Z.to_nat ((Z.of_nat j + k) mod Z.of_nat (N / 2))).
Proof.
  intros N pp logN u o c k rk s B T level WF O SM EN HL HU LV W HK. set (crs := NewCRS pp logN u) in *. set (r := k mod Z.of_nat (N / 2)).
  pose proof (proj1 (wf_N _ _ WF)) as N2. assert (HP : 0 < Z.of_nat (N / 2)) by (pose proof (Nat.div_le_mono 2 N 2 ltac:(lia) N2); change (2 / 2)%nat with 1%nat in *; lia).
  assert (RB : 0 <= r < Z.of_nat (N / 2)) by (apply Z.mod_pos_bound; exact HP).
  assert (CI : forall i, (In i (keys crs) <-> In i [0; -1; -2; -3; -4] \/ default_index N i) /\ (In i (keys crs) -> mget Z.eq_dec crs i = Some (crs_entry pp (u i)))).
  { intros i. unfold crs. rewrite EN at 3. subst N. apply C04_crs_indices. exact HL. }
  assert (UD : forall i, r <> 0 -> used_index crs r i -> default_index N i).
  { intros i NZ [[A ->]|(A & t & T1 & T2 & ->)].
    - destruct (CI r) as [X _]. apply (mget_In_keys Z.eq_dec) in A. apply X in A as [A|A]; [|exact A]. cbn in A. lia.
    - exists t. split; [lia|]. split; [reflexivity|].
      assert (2 ^ t <= r); [|lia]. destruct (Z.le_gt_cases (2 ^ t) r) as [|G]; [assumption|]. exfalso.
      rewrite Z.bits_above_log2 in T2; [discriminate|lia|]. apply Z.log2_lt_pow2; lia. }
  destruct (C23_rotate_new N pp o crs c k rk s B T level WF O SM LV W) as (v & E & A1 & A2 & A3 & A4 & A5); fold r.
  - intros i NZ U. exists (crs_entry pp (u i)). destruct (CI i) as [X Y]. split; [apply Y, X; right; apply UD; assumption|]. apply (crs_entry_ok pp WF). intros j Hj. apply HU; [apply UD; assumption|exact Hj].
  - intros i id NZ U Hid. apply HK; [apply UD; assumption|exact Hid].
  - exists v, E. split; [exact A1|]. split; [exact A2|]. split; [exact A3|]. fold r in A4, A5. split.
    + replace (ones r) with (rot_count crs r); [exact A4|]. unfold rot_count. destruct (Z.eqb_spec r 0) as [->|NZ]; [reflexivity|].
      destruct (mget Z.eq_dec crs r) as [a|] eqn:G; [|reflexivity].
      destruct (UD r NZ) as (t & T1 & T2 & _); [left; split; [congruence|reflexivity]|]. rewrite T2.
      clear - T1. revert t T1. apply natlike_ind; [reflexivity|]. intros t Ht IH. rewrite Z.pow_succ_r by exact Ht. rewrite ones_even by (apply Z.pow_nonneg; lia). exact IH.
    + intros m HM. exists (galois (5 ^ r) m). split.
      * intros j Hj. eapply eqm_trans; [apply A5; exact Hj|]. apply eqm_add; [|apply eqm_refl]. apply (galois_eqm pp WF); [lia|]. apply HM. exact Hj.
      * intros j Hj. replace r with (Z.of_nat (Z.to_nat r)) by lia. rewrite C25_ckks_rotate by (trivial; apply (pow2N pp WF)). f_equal.
        apply Nat2Z.inj. rewrite Nat2Z.inj_mod, Nat2Z.inj_add, !Z2Nat.id by (try apply Z.mod_pos_bound; lia). unfold r. apply Z.add_mod_idemp_r. lia.
Qed.
Print Assumptions C23_default.

(** the hoisted variant: the same ciphertext when the amount has its own CRS entry (or is 0 mod N/2), a panic otherwise *)
Theorem C23_hoisted : forall N pp (o : nat -> IdSetModel.order) crs (c : ckct N) k h rk level, wfp N pp -> (forall n, order_ok (o n)) ->
  (level < length (Qm pp))%nat -> wfct pp level false (cv c) -> hoisted_at pp level (cv c) (Some h) ->
  let r := k mod Z.of_nat (N / 2) in
  RotateHoistedNew pp o crs c k h rk = if (r =? 0) || mhas Z.eq_dec crs r then RotateNew pp o crs c k rk else Panic.
Proof.
  intros N pp o crs c k h rk level WF O LV W HH r. unfold RotateHoistedNew, RotateNew.
  pose proof (proj1 (wf_N _ _ WF)) as N2.
  destruct (IDSetOf_ok (o 0%nat 1%nat) (cv c)) as (ids & I1 & _ & I3); [intros l; apply O|]. rewrite I1. cbn [rbind]. rewrite (wfct_level pp _ _ _ W). cbn [rbind].
  destruct (C03_new_ciphertext N pp (o 0%nat 2%nat) ids level WF (fun l => O 0%nat 2%nat l) LV) as (NW & NK & _). set (out := NewCiphertext (o 0%nat 2%nat) ids level) in *.
  unfold rotateHoisted, rotate. rewrite rotNorm_ok by exact N2. cbn [rbind]. fold r. unfold mhas. destruct (Z.eqb_spec r 0) as [E|NE]; cbn [orb]; [reflexivity|].
  destruct (mget Z.eq_dec crs r); [|reflexivity]. rewrite (C21_rotate_hoisted N pp level level false (o 0%nat) crs (cv c) r h rk out WF (O 0%nat) ltac:(lia) W NW HH). reflexivity.
Qed.
Print Assumptions C23_hoisted.

(** a missing key: RotateNew panics, it never returns a partially rotated ciphertext *)
Lemma rfold_panic {A B} (f : B -> A -> res B) l x : In x l -> (forall b, f b x = Panic) -> forall b, rfold f l b = Panic.
Proof. induction l as [|y l IH]; intros I H b; [destruct I|]. cbn [rfold]. destruct I as [->|I]; [rewrite H; reflexivity|]. destruct (f b y); cbn [rbind]; [apply IH; assumption|reflexivity]. Qed.
Lemma rfold_keep {A B} (f : B -> A -> res B) (P : B -> Prop) l : (forall b x b', P b -> f b x = Ok b' -> P b') -> forall b b', P b -> rfold f l b = Ok b' -> P b'.
Proof.
  intros H. induction l as [|y l IH]; intros b b' Pb E; cbn [rfold] in E; [injection E as <-; exact Pb|]. destruct (f b y) as [c|] eqn:F; cbn [rbind] in E; [|discriminate].
  apply (IH c b'); [apply (H b y c Pb F)|exact E].
Qed.
Lemma Rotate_missing {N} pp (o : IdSetModel.order) crs (c : ctT N) k rk out id : order_ok o -> (2 <= N)%nat -> 0 <= k -> id <> id0 -> In id (keys c) -> rk_get rk id k = Panic ->
  Rotate pp o crs c k rk out = Panic.
Proof.
  intros O N2 K NI I G. unfold Rotate, RotateGen. destruct (ctLevel out); cbn [rbind]; [|reflexivity].
  destruct (IDSetOf_ok (o 0%nat) c) as (ids & I1 & _ & I3); [intros l; apply O|]. rewrite I1. cbn [rbind]. destruct (ctLevel c); cbn [rbind]; [|reflexivity].
  destruct (_ <? _)%nat; [reflexivity|]. rewrite norm_rot_ok by exact N2. destruct (Z.ltb_spec k 0); [lia|]. cbn [rbind].
  destruct (cget c id0); cbn [rbind]; [|reflexivity]. destruct (cget out id0); cbn [rbind]; [|reflexivity].
  rewrite (rfold_panic _ _ id); [reflexivity| |intros b; rewrite G; reflexivity].
  apply (Permutation_in _ (Permutation_sym (O 1%nat (keys ids)))). apply (mhas_In seq_dec). apply I3. split; assumption.
Qed.
Lemma Copy_keeps {N} o (d s c : ctT N) x : Copy o d s = Ok c -> In x (keys d) -> In x (keys c).
Proof.
  intros E I. unfold Copy in E. revert E. apply (rfold_keep _ (fun b => In x (keys b))); [|exact I]. intros b y b' Ib F.
  destruct (cget b y); cbn [rbind] in F; [|discriminate]. destruct (cget s y); cbn [rbind] in F; [|discriminate]. injection F as <-. apply keys_cset. right. exact Ib.
Qed.
Lemma rotChain_missing {N} pp (o : nat -> IdSetModel.order) crs rk id : (forall n, order_ok (o n)) -> (2 <= N)%nat -> id <> id0 ->
  forall fuel k r i (tmp out : ctT N), 0 < k -> 0 <= r -> 0 <= i -> Z.testbit r i = true -> In id (keys tmp) -> rk_get rk id (k * 2 ^ i) = Panic -> rotChain pp o crs fuel k r rk tmp out = Panic.
Proof.
  intros O N2 NI. induction fuel as [|fuel IH]; intros k r i tmp out HK HR HI T I G.
  - cbn. destruct (Z.ltb_spec 0 r); [reflexivity|]. replace r with 0 in T by lia. rewrite Z.testbit_0_l in T. discriminate.
  - cbn [rotChain]. destruct (Z.ltb_spec 0 r); [|replace r with 0 in T by lia; rewrite Z.testbit_0_l in T; discriminate].
    assert (R2 : 0 <= r / 2) by (apply Z.div_pos; lia).
    assert (TB : 0 < i -> Z.testbit (r / 2) (i - 1) = true).
    { intros P. rewrite <- Z.div2_div, Z.div2_spec, Z.shiftr_spec by lia. replace (i - 1 + 1) with i by lia. exact T. }
    assert (KB : 0 < i -> k * 2 * 2 ^ (i - 1) = k * 2 ^ i) by (intros P; replace i with (i - 1 + 1) at 2 by lia; rewrite Z.pow_add_r by lia; change (2 ^ 1) with 2; ring).
    destruct (Z.eqb_spec (r mod 2) 0) as [E0|E1]; cbn [negb].
    + cbn [rbind]. destruct (Z.eq_dec i 0) as [->|NZ]; [pose proof (Z.bit0_mod r) as Y; rewrite T, E0 in Y; discriminate|].
      apply (IH (k * 2) (r / 2) (i - 1)); try lia; [apply TB; lia|exact I|]. rewrite KB by lia. exact G.
    + destruct (Z.eq_dec i 0) as [->|NZ].
      * rewrite Z.pow_0_r, Z.mul_1_r in G. rewrite (Rotate_missing pp (o fuel) crs tmp k rk out id) by (trivial; lia). reflexivity.
      * destruct (Rotate pp (o fuel) crs tmp k rk out) as [out1|]; cbn [rbind]; [|reflexivity]. destruct (Copy (o fuel 9%nat) tmp out1) as [tmp1|] eqn:C; cbn [rbind]; [|reflexivity].
        apply (IH (k * 2) (r / 2) (i - 1)); try lia; [apply TB; lia|apply (Copy_keeps _ _ _ _ _ C I)|]. rewrite KB by lia. exact G.
Qed.
Theorem C23_missing_key : forall N pp (o : nat -> IdSetModel.order) crs (c : ckct N) k rk id i level, wfp N pp -> (forall n, order_ok (o n)) ->
  (level < length (Qm pp))%nat -> wfct pp level false (cv c) -> In id (parties (cv c)) ->
  let r := k mod Z.of_nat (N / 2) in r <> 0 -> used_index crs r i -> rk_get rk id i = Panic -> RotateNew pp o crs c k rk = Panic.
Proof.
  intros N pp o crs c k rk id i level WF O LV W Hid r NZ U G. unfold RotateNew. pose proof (proj1 (wf_N _ _ WF)) as N2. apply in_parties in Hid as [NI Hid].
  assert (HP : 0 < Z.of_nat (N / 2)) by (pose proof (Nat.div_le_mono 2 N 2 ltac:(lia) N2); change (2 / 2)%nat with 1%nat in *; lia).
  assert (RB : 0 <= r) by (apply Z.mod_pos_bound; exact HP).
  destruct (IDSetOf (o 0%nat 1%nat) (cv c)); cbn [rbind]; [|reflexivity]. destruct (ctLevel (cv c)); cbn [rbind]; [|reflexivity].
  unfold rotate. rewrite rotNorm_ok by exact N2. cbn [rbind]. fold r. destruct (Z.eqb_spec r 0); [contradiction|]. destruct U as [[A ->]|(A & t & T1 & T2 & ->)].
  - destruct (mget Z.eq_dec crs r); [|congruence]. rewrite (Rotate_missing pp (o 0%nat) crs (cv c) r rk _ id) by trivial. reflexivity.
  - rewrite A. destruct (CopyNew_ok (o 0%nat 0%nat) (cv c) (fun l => O 0%nat 0%nat l) (proj1 W) (proj1 (proj2 W))) as (tmp & E & T3 & T4). rewrite E. cbn [rbind].
    rewrite (rotChain_missing pp o crs rk id O N2 NI (Z.to_nat r) 1 r t); trivial; try lia; [|rewrite Z.mul_1_l; exact G].
    apply (mget_In_keys seq_dec). rewrite T4. apply (mget_In_keys seq_dec). exact Hid.
Qed.
Print Assumptions C23_missing_key.

(** the hypotheses are met by the parameters of Instance.v: N = 8, default CRS, default keys of two parties, and the amount -1 = 3 mod 4 (two rotations) *)
Definition ex_rtk1 (i : Z) (id : string) : rotKey 8 := match GenRotationKey ex_pp ex_crs i (ex_sk id) ex_smp with Ok k => k | Panic => RTK id 0 nil end.
Example C23_nonvacuous : exists (c : ckct 8) (rk : rotset 8), wfct ex_pp 2 false (cv c) /\ parties (cv c) = ["alice"; "bob"]%string /\ 8%nat = (2 ^ 3)%nat /\
  (forall i j, default_index 8 i -> (j < beta ex_pp (maxLevel ex_pp))%nat -> wordsQP ex_pp (ex_u i j)) /\
  (forall i id, default_index 8 i -> In id (parties (cv c)) -> has_rot_key ex_pp (NewCRS ex_pp 3 ex_u) rk i 3 1 id ex_s) /\
  ones (-1 mod Z.of_nat (8 / 2)) = 2 /\ used_index ex_crs (-1 mod Z.of_nat (8 / 2)) 2 /\ rk_get rk "carol"%string 2 = Panic.
Proof.
  destruct C20_nonvacuous as (op0 & op1 & out & W0 & W1 & _ & _ & P1 & _ & _).
  exists (CK op1 f_one), (map (fun id => (id, [(1, ex_rtk1 1 id); (2, ex_rtk1 2 id)])) ["bob"; "alice"]%string). cbn [cv].
  split; [exact W1|]. split; [exact P1|]. split; [reflexivity|]. split; [intros i j Hi Hj; apply ex_u_words; [apply (default_index_pow 3) in Hi; [cbn in Hi; lia|lia]|exact Hj]|]. split; [|split; [reflexivity|split; [|reflexivity]]].
  - intros i id D Hid. rewrite P1 in Hid. apply (default_index_pow 3) in D; [|lia]. fold ex_crs.
    assert (SM : forall k, is_sample ex_pp 3 (ex_e k) (ex_smp k)) by (intros k; apply ex_e_sample).
    assert (I : In i [0; -1; -2; 1; 2] /\ 0 <= i) by (cbn in D; cbn; lia). destruct I as [I Ip].
    exists (ex_sk id), ex_smp, ex_e, (ex_rtk1 i id). split; [apply ex_sk_val|]. split; [apply bnd_poly; [lia|reflexivity]|]. split; [intros k _; apply SM|]. split.
    + destruct (GenRotationKey_ok ex_pp ex_wf 3 ex_e ex_smp ex_crs i _ i (crs_entry ex_pp (ex_u i)) (ex_sk id) ex_s ex_small (fun k _ => SM k) (ex_sk_val id) (proj1 (ex_crs_get i I))) as (key & X & _).
      * destruct (Z.ltb_spec i 0); [lia|reflexivity].
      * exact (proj1 (ex_crs_get i I)).
      * exact (proj2 (ex_crs_get i I)).
      * unfold ex_rtk1. rewrite X. reflexivity.
    + assert (DD : i = 1 \/ i = 2) by (cbn in D; lia). destruct Hid as [<-|[<-|[]]]; destruct DD as [->| ->]; reflexivity.
  - right. split; [vm_compute; reflexivity|]. exists 1. split; [lia|]. split; reflexivity.
Qed.
