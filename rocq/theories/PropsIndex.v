(** C04, C35, C37: the default CRS and rotation keys, rotation keys for every index, sparse key pairs. *)
From Verif Require Import Base KeySetModel NumTheory Negacyclic Ntt Word BasisExt BasisExtProofs Rows RlweModel SchemeSpec ExtProd ExtProps KeyGenModel Galois KeyGenProofs Instance KeySwitchModel IndexModel.
From Coq Require Import Znumtheory.
Open Scope Z_scope.

(** the rotation amounts for which a default key exists *)
Definition default_index (N : nat) (i : Z) : Prop := exists t, 0 <= t /\ i = 2 ^ t /\ i < Z.of_nat (N / 2).

Lemma pow_half logN : (0 < logN)%nat -> Z.of_nat (2 ^ logN / 2) = 2 ^ Z.of_nat (logN - 1).
Proof.
  intros H. replace logN with (S (logN - 1)) at 1 by lia. rewrite Nat.pow_succ_r', Nat.mul_comm, Nat.div_mul by lia.
  rewrite Nat2Z.inj_pow. reflexivity.
Qed.
Lemma default_index_pow logN i : (0 < logN)%nat -> default_index (2 ^ logN) i <-> In i (map (fun t => 2 ^ Z.of_nat t) (seq 0 (logN - 1))).
Proof.
  intros H. unfold default_index. rewrite pow_half by assumption. rewrite in_map_iff. split.
  - intros (t & T & -> & L). apply Z.pow_lt_mono_r_iff in L; [|lia|lia]. exists (Z.to_nat t). split; [f_equal; lia|]. apply in_seq. lia.
  - intros (t & <- & I). apply in_seq in I. exists (Z.of_nat t). split; [lia|]. split; [reflexivity|]. apply Z.pow_lt_mono_r; lia.
Qed.
Lemma fold_mset_get {A} (f : Z -> A) l (c : gomap Z A) i :
  mget Z.eq_dec (fold_left (fun c i => mset Z.eq_dec c i (f i)) l c) i = if in_dec Z.eq_dec i l then Some (f i) else mget Z.eq_dec c i.
Proof.
  revert c. induction l as [|x l IH]; intros c; cbn [fold_left]; [reflexivity|]. rewrite IH.
  destruct (in_dec Z.eq_dec i l) as [I|I]; destruct (in_dec Z.eq_dec i (x :: l)) as [J|J]; trivial.
  - exfalso. apply J. right. assumption.
  - destruct J as [->|J]; [|contradiction]. rewrite mget_mset. destruct (Z.eq_dec i i); congruence.
  - rewrite mget_mset. destruct (Z.eq_dec i x); [|reflexivity]. exfalso. apply J. left. congruence.
Qed.

(** ** C04 *)
Theorem C04_crs_indices : forall N pp logN (u : Z -> nat -> polyQP N) i, (0 < logN)%nat ->
  (In i (keys (NewCRS pp logN u)) <-> In i [0; -1; -2; -3; -4] \/ default_index (2 ^ logN) i) /\
  (In i (keys (NewCRS pp logN u)) -> mget Z.eq_dec (NewCRS pp logN u) i = Some (crs_entry pp (u i))).
Proof.
  intros N pp logN u i H. unfold NewCRS. rewrite <- (mget_In_keys Z.eq_dec), (fold_mset_get (fun i => crs_entry pp (u i))). cbn [mget].
  rewrite default_index_pow by assumption. unfold crs_indices. destruct (in_dec Z.eq_dec i _) as [I|I].
  - split; [|reflexivity]. split; [intros _; apply in_app_iff; exact I|discriminate].
  - split; [|congruence]. split; [congruence|]. rewrite in_app_iff in I. tauto.
Qed.
Print Assumptions C04_crs_indices.

Lemma rk_get_add {N} (s : rotset N) k id i :
  rk_get (AddRotationKey s k) id i = if string_dec id (rtk_id k) then if Z.eq_dec i (rtk_idx k) then Ok k else rk_get s id i else rk_get s id i.
Proof.
  unfold AddRotationKey, rk_add, rk_get. destruct (mget seq_dec s (rtk_id k)) as [inner|] eqn:E.
  - rewrite E. rewrite mget_mset. destruct (string_dec id (rtk_id k)) as [->|n].
    + destruct (seq_dec (rtk_id k) (rtk_id k)); [|congruence]. rewrite mget_mset. rewrite E. destruct (Z.eq_dec i (rtk_idx k)); reflexivity.
    + destruct (seq_dec id (rtk_id k)); [congruence|]. reflexivity.
  - rewrite (mget_mset_eq seq_dec). rewrite !mget_mset. destruct (string_dec id (rtk_id k)) as [->|n].
    + destruct (seq_dec (rtk_id k) (rtk_id k)); [|congruence]. rewrite mget_mset. rewrite E. destruct (Z.eq_dec i (rtk_idx k)); reflexivity.
    + destruct (seq_dec id (rtk_id k)); [congruence|]. reflexivity.
Qed.
(** GenRotationKey succeeds as soon as the two CRS lookups do *)
Lemma GenRotationKey_total {N} pp (crs : crsT N) rotidx (sk : secretKey N) smp : (2 <= N)%nat ->
  (forall i a, mget Z.eq_dec crs i = Some a -> (beta pp (maxLevel pp) <= length a)%nat) ->
  let k := if rotidx <? 0 then rotidx mod Z.of_nat (N / 2) else rotidx in
  match mget Z.eq_dec crs rotidx, mget Z.eq_dec crs k with
  | Some _, Some _ => exists v, GenRotationKey pp crs rotidx sk smp = Ok (RTK (sk_id sk) k v)
  | _, _ => GenRotationKey pp crs rotidx sk smp = Panic
  end.
Proof.
  intros N2 LA k. unfold GenRotationKey, crs_get. unfold crsT, swk in *. destruct (mget Z.eq_dec crs rotidx) as [a0|]; cbn [rbind]; [|reflexivity].
  rewrite norm_rot_ok by assumption. fold k. cbn [rbind]. destruct (mget Z.eq_dec crs k) as [a|] eqn:E; cbn [rbind]; [|reflexivity].
  rewrite swk_zip_ok; [eexists; reflexivity|apply (LA _ _ E)|]. unfold GenSwitchingKey. rewrite tab_length. lia.
Qed.

Lemma default_loop_ok {N} pp (crs : crsT N) (sk : secretKey N) smp : (2 <= N)%nat ->
  (forall i a, mget Z.eq_dec crs i = Some a -> (beta pp (maxLevel pp) <= length a)%nat) -> (forall i, default_index N i -> In i (keys crs)) ->
  forall fuel t s, 0 <= t -> Z.of_nat (N / 2) <= 2 ^ t + Z.of_nat fuel -> exists s', default_loop pp fuel crs (2 ^ t) sk smp s = Ok s' /\
    forall id i, rk_get s' id i = if string_dec id (sk_id sk) then
       (if in_dec Z.eq_dec i (map (fun x => 2 ^ (t + Z.of_nat x)) (filter (fun x => 2 ^ (t + Z.of_nat x) <? Z.of_nat (N / 2)) (seq 0 fuel)))
        then GenRotationKey pp crs i sk (smp i) else rk_get s id i) else rk_get s id i.
Proof.
  intros N2 LA KC. induction fuel as [|f IH]; intros t s T F; cbn [default_loop].
  - destruct (Z.ltb_spec (2 ^ t) (Z.of_nat (N / 2))); [lia|]. exists s. split; [reflexivity|]. intros id i. cbn. destruct (string_dec id (sk_id sk)); reflexivity.
  - destruct (Z.ltb_spec (2 ^ t) (Z.of_nat (N / 2))) as [Lt|Ge].
    + assert (P : 0 < 2 ^ t) by (apply Z.pow_pos_nonneg; lia).
      pose proof (GenRotationKey_total pp crs (2 ^ t) sk (smp (2 ^ t)) N2 LA) as G. cbv zeta in G. destruct (Z.ltb_spec (2 ^ t) 0); [lia|].
      assert (K : In (2 ^ t) (keys crs)) by (apply KC; exists t; split; [assumption|split; [reflexivity|assumption]]). apply (mget_In_keys Z.eq_dec) in K.
      destruct (mget Z.eq_dec crs (2 ^ t)) as [a|] eqn:E; [|congruence]. destruct G as [v G]. rewrite G. cbn [rbind].
      replace (2 ^ t * 2) with (2 ^ (t + 1)) by (rewrite Z.pow_add_r by lia; lia).
      destruct (IH (t + 1) (AddRotationKey s (RTK (sk_id sk) (2 ^ t) v)) ltac:(lia)) as (s' & S1 & S2); [rewrite Z.pow_add_r by lia; lia|].
      exists s'. split; [exact S1|]. intros id i. rewrite S2, rk_get_add. cbn [rtk_id rtk_idx].
      destruct (string_dec id (sk_id sk)) as [->|n]; [|reflexivity].
      cbn [seq filter]. replace (t + Z.of_nat 0) with t by lia. destruct (Z.ltb_spec (2 ^ t) (Z.of_nat (N / 2))); [|lia].
      cbn [map]. replace (t + Z.of_nat 0) with t by lia. rewrite <- seq_shift.
      assert (EL : map (fun x => 2 ^ (t + Z.of_nat x)) (filter (fun x => 2 ^ (t + Z.of_nat x) <? Z.of_nat (N / 2)) (map S (seq 0 f))) =
                   map (fun x => 2 ^ (t + 1 + Z.of_nat x)) (filter (fun x => 2 ^ (t + 1 + Z.of_nat x) <? Z.of_nat (N / 2)) (seq 0 f))).
      { generalize (seq 0 f) as l. induction l as [|x l IHl]; [reflexivity|]. cbn [map filter]. replace (t + Z.of_nat (S x)) with (t + 1 + Z.of_nat x) by lia.
        destruct (2 ^ (t + 1 + Z.of_nat x) <? Z.of_nat (N / 2)); cbn [map]; [|exact IHl]. rewrite IHl. f_equal. f_equal. lia. }
      rewrite EL. set (l := map _ _). destruct (in_dec Z.eq_dec i l) as [I|I]; destruct (in_dec Z.eq_dec i (2 ^ t :: l)) as [J|J]; trivial.
      * exfalso. apply J. right. assumption.
      * destruct J as [<-|J]; [|contradiction]. destruct (Z.eq_dec (2 ^ t) (2 ^ t)); congruence.
      * destruct (Z.eq_dec i (2 ^ t)) as [->|]; [exfalso; apply J; left; reflexivity|reflexivity].
    + exists s. split; [reflexivity|]. intros id i. destruct (string_dec id (sk_id sk)); [|reflexivity].
      match goal with |- context [in_dec Z.eq_dec i ?l] => destruct (in_dec Z.eq_dec i l) as [I|I] end; [|reflexivity].
      exfalso. apply in_map_iff in I. destruct I as (x & <- & I). apply filter_In in I. destruct I as [_ I]. apply Z.ltb_lt in I.
      assert (2 ^ t <= 2 ^ (t + Z.of_nat x)) by (apply Z.pow_le_mono_r; lia). lia.
Qed.

(** GenDefaultRotationKeys never panics; it adds exactly the keys of the default indices, each the one GenRotationKey makes,
    and changes no other entry *)
Theorem C04_default_keys : forall N pp (u : Z -> nat -> polyQP N) logN (sk : secretKey N) smp s crs,
  N = (2 ^ logN)%nat -> (0 < logN)%nat -> crs = NewCRS pp logN u ->
  exists s', GenDefaultRotationKeys pp crs sk smp s = Ok s' /\
    (forall i, default_index N i -> exists v, GenRotationKey pp crs i sk (smp i) = Ok (RTK (sk_id sk) i v) /\ rk_get s' (sk_id sk) i = Ok (RTK (sk_id sk) i v)) /\
    (forall id i, ~ (id = sk_id sk /\ default_index N i) -> rk_get s' id i = rk_get s id i).
Proof.
  intros N pp u logN sk smp s crs EN HL ->.
  assert (N2 : (2 <= N)%nat) by (subst N; destruct logN as [|l]; [lia|]; cbn; pose proof (Nat.pow_nonzero 2 l); lia).
  set (crs := NewCRS pp logN u).
  assert (GC : forall i, default_index N i -> mget Z.eq_dec crs i = Some (crs_entry pp (u i))).
  { intros i D. destruct (C04_crs_indices N pp logN u i HL) as [A B]. apply B. apply A. right. subst N. assumption. }
  assert (LA : forall i a, mget Z.eq_dec crs i = Some a -> (beta pp (maxLevel pp) <= length a)%nat).
  { intros i a E. destruct (C04_crs_indices N pp logN u i HL) as [_ B]. fold crs in B. rewrite B in E by (apply (mget_In_keys Z.eq_dec); fold crs; congruence).
    injection E as <-. unfold crs_entry. rewrite tab_length. lia. }
  destruct (default_loop_ok pp crs sk smp N2 LA) with (fuel := N) (t := 0) (s := s) as (s' & S1 & S2); [|lia| |].
  { intros i D. apply (mget_In_keys Z.eq_dec). rewrite (GC i D). discriminate. }
  { assert (N / 2 <= N)%nat by (apply Nat.div_le_upper_bound; lia). lia. }
  exists s'. split; [exact S1|].
  assert (DI : forall i, default_index N i <-> In i (map (fun x => 2 ^ (0 + Z.of_nat x)) (filter (fun x => 2 ^ (0 + Z.of_nat x) <? Z.of_nat (N / 2)) (seq 0 N)))).
  { intros i. rewrite in_map_iff. split.
    - intros (t & T & -> & L). exists (Z.to_nat t). rewrite Z2Nat.id by assumption. split; [reflexivity|]. apply filter_In. rewrite Z2Nat.id by assumption. split; [|apply Z.ltb_lt; exact L].
      apply in_seq. assert (t < 2 ^ t) by (apply Z.pow_gt_lin_r; lia). assert (N / 2 <= N)%nat by (apply Nat.div_le_upper_bound; lia). lia.
    - intros (x & <- & I). apply filter_In in I. destruct I as [_ I]. apply Z.ltb_lt in I. exists (Z.of_nat x). split; [lia|]. split; [reflexivity|exact I]. }
  split.
  - intros i D. pose proof (GenRotationKey_total pp crs i sk (smp i) N2 LA) as G. cbv zeta in G.
    assert (0 < i) by (destruct D as (t & T & -> & _); apply Z.pow_pos_nonneg; lia). destruct (Z.ltb_spec i 0); [lia|]. rewrite (GC i D) in G. destruct G as [v G].
    exists v. split; [exact G|]. rewrite S2. destruct (string_dec (sk_id sk) (sk_id sk)); [|congruence]. apply DI in D. destruct (in_dec Z.eq_dec i _); [exact G|contradiction].
  - intros id i H1. rewrite S2. destruct (string_dec id (sk_id sk)) as [->|]; [|reflexivity]. destruct (in_dec Z.eq_dec i _) as [I|]; [|reflexivity].
    exfalso. apply H1. split; [reflexivity|]. apply DI. exact I.
Qed.
Print Assumptions C04_default_keys.

(** every rotation amount below N/2 is a sum of distinct default indices *)
Theorem C04_amounts : forall logN k, (0 < logN)%nat -> 0 <= k < Z.of_nat (2 ^ logN / 2) ->
  exists l, NoDup l /\ (forall x, In x l -> default_index (2 ^ logN) x) /\ k = fold_right Z.add 0 l.
Proof.
  intros logN k H K. rewrite pow_half in K by assumption.
  assert (X : forall n k, 0 <= k < 2 ^ Z.of_nat n -> exists l, NoDup l /\ (forall x, In x l -> exists t, 0 <= t < Z.of_nat n /\ x = 2 ^ t) /\ k = fold_right Z.add 0 l).
  { induction n as [|n IH]; intros z Hz.
    - exists nil. split; [constructor|]. split; [intros x []|]. cbn in *. lia.
    - rewrite Nat2Z.inj_succ, Z.pow_succ_r in Hz by lia. destruct (Z.lt_ge_cases z (2 ^ Z.of_nat n)) as [L|G].
      + destruct (IH z ltac:(lia)) as (l & A & B & C). exists l. split; [assumption|]. split; [|assumption]. intros x Hx. destruct (B x Hx) as (t & T & E). exists t. split; [lia|assumption].
      + destruct (IH (z - 2 ^ Z.of_nat n) ltac:(lia)) as (l & A & B & C). exists (2 ^ Z.of_nat n :: l). split.
        * constructor; [|assumption]. intros I. destruct (B _ I) as (t & T & E). apply Z.pow_inj_r in E; lia.
        * split; [|cbn; lia]. intros x [<-|Hx]; [exists (Z.of_nat n); split; [lia|reflexivity]|]. destruct (B x Hx) as (t & T & E). exists t. split; [lia|assumption]. }
  destruct (X (logN - 1)%nat k K) as (l & A & B & C). exists l. split; [assumption|]. split; [|assumption].
  intros x Hx. destruct (B x Hx) as (t & T & E). exists t. split; [lia|]. split; [assumption|]. rewrite pow_half by assumption. subst x. apply Z.pow_lt_mono_r; lia.
Qed.
Print Assumptions C04_amounts.

(** ** C35 *)
(** GenRotationKey(k) succeeds exactly when both k and its normalised form have a CRS; the key then carries the normalised index,
    the one Rotate(k) looks for *)
Theorem C35_generate : forall N pp (crs : crsT N) k (sk : secretKey N) smp, (2 <= N)%nat ->
  (forall i a, mget Z.eq_dec crs i = Some a -> (beta pp (maxLevel pp) <= length a)%nat) ->
  let n := if k <? 0 then k mod Z.of_nat (N / 2) else k in
  (In k (keys crs) /\ In n (keys crs) -> exists key, GenRotationKey pp crs k sk smp = Ok key /\ rtk_id key = sk_id sk /\ rtk_idx key = n /\
     forall s, rk_get (AddRotationKey s key) (sk_id sk) n = Ok key) /\
  (~ (In k (keys crs) /\ In n (keys crs)) -> GenRotationKey pp crs k sk smp = Panic) /\
  norm_rot N k = Ok n.
Proof.
  intros N pp crs k sk smp N2 LA n. pose proof (GenRotationKey_total pp crs k sk smp N2 LA) as G. cbv zeta in G. fold n in G. unfold crsT, swk in *.
  rewrite <- !(mget_In_keys Z.eq_dec). split; [|split].
  - intros [A B]. destruct (mget Z.eq_dec crs k); [|congruence]. destruct (mget Z.eq_dec crs n); [|congruence]. destruct G as [v G].
    exists (RTK (sk_id sk) n v). split; [exact G|]. split; [reflexivity|]. split; [reflexivity|]. intros s. rewrite rk_get_add. cbn [rtk_id rtk_idx].
    destruct (string_dec (sk_id sk) (sk_id sk)); [|congruence]. destruct (Z.eq_dec n n); congruence.
  - intros H. destruct (mget Z.eq_dec crs k); [|exact G]. destruct (mget Z.eq_dec crs n); [|exact G]. exfalso. apply H. split; discriminate.
  - apply norm_rot_ok. assumption.
Qed.
Print Assumptions C35_generate.
(** for k >= 0 a CRS for k is enough *)
Theorem C35_nonnegative : forall N pp (crs : crsT N) k (sk : secretKey N) smp, (2 <= N)%nat -> 0 <= k ->
  (forall i a, mget Z.eq_dec crs i = Some a -> (beta pp (maxLevel pp) <= length a)%nat) ->
  (In k (keys crs) <-> exists key, GenRotationKey pp crs k sk smp = Ok key).
Proof.
  intros N pp crs k sk smp N2 K LA. destruct (C35_generate N pp crs k sk smp N2 LA) as (A & B & _). destruct (Z.ltb_spec k 0); [lia|]. split.
  - intros I. destruct (A (conj I I)) as (key & G & _). exists key. exact G.
  - intros [key G]. destruct (in_dec Z.eq_dec k (keys crs)) as [I|I]; [exact I|]. rewrite B in G by tauto. discriminate.
Qed.
Print Assumptions C35_nonnegative.
(** AddCRS(k) for a negative k is not enough: only the CRS of the normalised index is used, and it is missing *)
Theorem C35_negative_refuted : forall N pp logN (u : Z -> nat -> polyQP N) uk k (sk : secretKey N) smp, N = (2 ^ logN)%nat -> (0 < logN)%nat -> k < 0 ->
  ~ default_index N (k mod Z.of_nat (N / 2)) -> k mod Z.of_nat (N / 2) <> 0 ->
  In k (keys (AddCRS pp (NewCRS pp logN u) k uk)) /\ GenRotationKey pp (AddCRS pp (NewCRS pp logN u) k uk) k sk smp = Panic.
Proof.
  intros N pp logN u uk k sk smp EN HL K ND NZ. assert (N2 : (2 <= N)%nat) by (subst N; destruct logN as [|l]; [lia|]; cbn; pose proof (Nat.pow_nonzero 2 l); lia).
  assert (P : 0 < Z.of_nat (N / 2)) by (rewrite EN, pow_half by assumption; apply Z.pow_pos_nonneg; lia).
  pose proof (Z.mod_pos_bound k _ P) as MB.
  assert (IK : In k (keys (AddCRS pp (NewCRS pp logN u) k uk))) by (apply (mget_In_keys Z.eq_dec); unfold AddCRS; rewrite (mget_mset_eq Z.eq_dec); discriminate).
  split; [exact IK|]. unfold GenRotationKey, crs_get. apply (mget_In_keys Z.eq_dec) in IK. destruct (mget Z.eq_dec _ k); [|congruence]. cbn [rbind].
  rewrite norm_rot_ok by assumption. destruct (Z.ltb_spec k 0); [|lia]. cbn [rbind].
  unfold AddCRS. rewrite mget_mset. destruct (Z.eq_dec (k mod Z.of_nat (N / 2)) k); [lia|].
  destruct (mget Z.eq_dec (NewCRS pp logN u) (k mod Z.of_nat (N / 2))) as [a|] eqn:E; [|reflexivity]. exfalso.
  destruct (C04_crs_indices N pp logN u (k mod Z.of_nat (N / 2)) HL) as [A _]. destruct A as [A _].
  destruct A as [A|A]; [apply (mget_In_keys Z.eq_dec); congruence| |subst N; contradiction]. cbn [In] in A. lia.
Qed.
Print Assumptions C35_negative_refuted.
(** in particular the reserved indices -1 .. -4, which every parameter set has *)
Example C35_minus_one : forall (sk : secretKey 8) smp, In (-1) (keys ex_crs) /\ GenRotationKey ex_pp ex_crs (-1) sk smp = Panic.
Proof. intros sk smp. split; [vm_compute; tauto|]. reflexivity. Qed.

(** ** C37 *)
Theorem C37_key_pair : forall N pp crs c (id : string) ss se B (s e : R N), wfp N pp -> small_ok pp B -> is_sample pp B s ss -> is_sample pp B e se ->
  mget Z.eq_dec crs 0 = Some c -> crs_ok pp c ->
  exists sk pk, GenKeyPair pp crs id ss se = Ok (sk, pk) /\ sk_id sk = id /\ pk_id pk = id /\ mval pp (maxLevel pp) (sk_val sk) (fun _ => s) /\
    forall i, vi pp (maxLevel pp) i -> rep (md pp i) (fqp (pk0 pk) i) (sub e (mul s (raw_val pp (nth 0 c dQP) i))) /\ rep (md pp i) (fqp (pk1 pk) i) (raw_val pp (nth 0 c dQP) i).
Proof.
  intros N pp crs c id ss se B s e WF S1 S2 S3 GC CO. unfold GenKeyPair. set (sk := genSecretKeyFromSampler pp id ss).
  pose proof (genSecretKey_ok pp WF B s id ss S1 S2) as KV. fold sk in KV.
  destruct (GenPublicKey_ok pp WF B e se crs c sk s S1 S3 KV GC CO) as (pk & P1 & P2 & P3 & P4). rewrite P1. cbn [rbind].
  exists sk, pk. split; [reflexivity|]. split; [reflexivity|]. split; [rewrite P2; reflexivity|]. split; [exact KV|]. intros i V. destruct (P4 i V) as (_ & _ & Y). exact Y.
Qed.
Print Assumptions C37_key_pair.
(** GenKeyPairSparse never returns *)
Theorem C37_sparse_refuted : forall N pp crs hw (ss se : list (R N)), GenKeyPairSparse pp crs hw ss se = Panic.
Proof. reflexivity. Qed.
Print Assumptions C37_sparse_refuted.

Example C04_nonvacuous : default_index 8 1 /\ default_index 8 2 /\ ~ default_index 8 3 /\ keys ex_crs = [0; -1; -2; -3; -4; 1; 2] /\
  (forall i a, mget Z.eq_dec ex_crs i = Some a -> (beta ex_pp (maxLevel ex_pp) <= length a)%nat) /\ ~ default_index 8 (-1 mod 4) /\ -1 mod 4 <> 0.
Proof.
  assert (H3 : ~ default_index 8 3) by (intros D; apply (default_index_pow 3) in D; [|lia]; cbn in D; lia).
  split; [exists 0; cbn; lia|]. split; [exists 1; cbn; lia|]. split; [exact H3|]. split; [reflexivity|]. split; [|split; [exact H3|discriminate]].
  intros i a E. destruct (C04_crs_indices 8 ex_pp 3 ex_u i ltac:(lia)) as [_ B]. fold ex_crs in B. rewrite B in E by (apply (mget_In_keys Z.eq_dec); congruence).
  injection E as <-. unfold crs_entry. rewrite tab_length. lia.
Qed.
