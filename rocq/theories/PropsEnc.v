(** C03, C14, C15, C41: property theorems for ciphertext containers, encryption and decryption.
    Vocabulary in CtSpec.v: [phase pp s ct j] is c_0 + sum of c_id * s id modulo Q_j, over the polynomials the components stand for. *)
From Verif Require Import Base IdSetModel NumTheory Negacyclic Ntt Word BasisExt BasisExtProofs Rows RlweModel SchemeSpec ExtProd ExtProps KeyGenModel Galois KeyGenProofs Instance CtModel CtSpec CtProofs EncDecProofs HeapModel HeapProofs.
From Coq Require Import Znumtheory Setoid.
Open Scope Z_scope.

(** the rows of a polynomial in range, at most at the top level *)
Definition wfplain {N} (pp : rparams) (p : poly N) : Prop :=
  (0 < length (prows p) <= length (Qm pp))%nat /\ forall j, (j < length (prows p))%nat -> inr (Qi pp j) (row (prows p) j).

(** ** C03 *)
Theorem C03_new_ciphertext : forall N pp o (ids : idset) level, wfp N pp -> ord1_ok o -> (level < length (Qm pp))%nat ->
  let ct : ctT N := NewCiphertext o ids level in
  wfct pp level false ct /\ (forall x, In x (keys ct) <-> x = id0 \/ In x (keys ids)) /\ ctLevel ct = Ok level /\
  forall x p, mget seq_dec ct x = Some p -> p = Pol (repeat R0 (S level)) false.
Proof.
  intros N pp o ids level WF O HL ct.
  assert (G : forall x, mget seq_dec ct x = if in_dec string_dec x (o (keys ids)) then Some (zeroP (S level)) else if string_dec x id0 then Some (zeroP (S level)) else None).
  { intros x. unfold ct, NewCiphertext. rewrite (fold_cset_get (fun _ => zeroP (S level))). unfold cset. rewrite mget_mset. reflexivity. }
  assert (Z0 : zeroP (S level) = Pol (repeat (@R0 N) (S level)) false).
  { unfold zeroP, tab. f_equal. generalize 0%nat at 1. clear. induction (S level) as [|n IH]; intros z; [reflexivity|]. cbn [seq map repeat]. f_equal. apply IH. }
  assert (W : wfct pp level false ct).
  { split; [apply (fold_cset_wf (fun _ => zeroP (S level))); apply mwf_mset; constructor|]. split.
    - apply (mget_In_keys seq_dec). rewrite G. destruct (in_dec string_dec id0 (o (keys ids))); [discriminate|]. destruct (string_dec id0 id0); congruence.
    - intros x p. rewrite G. intros H. assert (E : p = zeroP (S level)) by (destruct (in_dec string_dec x (o (keys ids))); [congruence|]; destruct (string_dec x id0); congruence).
      subst p. apply wfpoly_tab. intros j Hj. apply canon_inr. apply canon_zero. apply (okQ pp WF). lia. }
  split; [exact W|]. split; [|split; [apply (wfct_level _ _ _ _ W)|]].
  - intros x. rewrite <- (mget_In_keys seq_dec). rewrite G. pose proof (O (keys ids)) as PO.
    destruct (in_dec string_dec x (o (keys ids))) as [I|I].
    + split; [intros _; right; apply (Permutation_in _ PO); assumption|discriminate].
    + destruct (string_dec x id0) as [->|n]; [split; [left; reflexivity|discriminate]|]. split; [congruence|].
      intros [?|H]; [congruence|]. exfalso. apply I. apply (Permutation_in _ (Permutation_sym PO)). assumption.
  - intros x p. rewrite G, <- Z0. destruct (in_dec string_dec x (o (keys ids))); [congruence|]. destruct (string_dec x id0); congruence.
Qed.
Print Assumptions C03_new_ciphertext.

Theorem C03_id_set : forall N o (ct : ctT N), ord1_ok o ->
  exists ids, IDSetOf o ct = Ok ids /\ forall x, is_has ids x = true <-> x <> id0 /\ In x (keys ct).
Proof. intros N o ct O. destruct (IDSetOf_ok o ct O) as (ids & A & _ & B). exists ids. split; assumption. Qed.
Print Assumptions C03_id_set.

(** CopyNew on the heap: equal components, all of them new objects, nothing existing changed.  Hence a later write to a
    component of the copy leaves the original unchanged and conversely. *)
Theorem C03_copy_new : forall N o (h : heap N) (c : hct), ord1_ok o -> mwf c -> hok h c -> In id0 (keys c) ->
  exists h' d, hCopyNew o h c = Ok (h', d) /\
    (forall id, mget seq_dec (view h' d) id = mget seq_dec (view h c) id) /\ hok h' d /\
    view h' c = view h c /\ (forall r, (r < length h)%nat -> nth r h' dpoly = nth r h dpoly) /\
    (forall r p, In r (map snd d) -> view (upd h' r p) c = view h c) /\ (forall r p, In r (map snd c) -> view (upd h' r p) d = view h' d).
Proof.
  intros N o h c O W K I0.
  destruct (CopyNew_ok o (view h c) O) as (v & A & B & C); [unfold mwf; rewrite keys_view; exact W|rewrite keys_view; exact I0|].
  pose proof (hCopyNew_ok o h c K (fun l x => Permutation_in _ (O l))) as H. rewrite A in H. destruct H as (h' & d & H1 & H2 & H3 & H4 & H5 & H6).
  assert (VE : view h' c = view h c).
  { unfold view. apply map_ext_in. intros [id r] I. f_equal. apply H6. apply K. apply (in_map snd) in I. exact I. }
  exists h', d. split; [exact H1|]. split; [rewrite H2; exact C|]. split; [exact H3|]. split; [exact VE|]. split; [exact H6|]. split.
  - intros r p I. rewrite view_upd_out; [exact VE|]. intros J. apply H4 in I. apply K in J. lia.
  - intros r p I. apply view_upd_out. intros J. apply H4 in J. apply K in I. lia.
Qed.
Print Assumptions C03_copy_new.

Theorem C03_pad : forall N pp (o : IdSetModel.order) level fl (ct : ctT N) (ids : idset), wfp N pp -> order_ok o -> (level < length (Qm pp))%nat -> wfct pp level fl ct ->
  exists ct', PadCiphertext o ct ids = Ok ct' /\ wfct pp level fl ct' /\
    (forall x, In x (keys ct') <-> In x (keys ct) \/ In x (keys ids)) /\
    (forall x, x = id0 \/ In x (keys ct) -> ~ In id0 (keys ids) -> mget seq_dec ct' x = mget seq_dec ct x) /\
    (~ In id0 (keys ids) -> forall s j, (j <= level)%nat -> eqm (mq (Qi pp j)) (phase pp s ct' j) (phase pp s ct j)).
Proof.
  intros N pp o level fl ct ids WF O HL W. destruct W as (W1 & W2 & W3). assert (W : wfct pp level fl ct) by (split; [assumption|split; assumption]).
  unfold PadCiphertext. rewrite cget_comp by assumption. cbn [rbind].
  destruct (IDSetOf_ok (o 0%nat) ct) as (old & A & _ & B); [intros l; apply O|]. rewrite A. cbn [rbind].
  pose proof (wfct_comp pp _ _ _ _ W W2) as W0.
  set (z := Pol (tab (S (plevel (comp ct id0))) (fun _ => @R0 N)) (pntt (comp ct id0))).
  assert (PL : plevel (comp ct id0) = level) by (unfold plevel; rewrite (proj1 W0); lia).
  assert (WZ : wfpoly pp level fl z).
  { unfold z. rewrite PL, (proj1 (proj2 W0)). apply wfpoly_tab. intros j Hj. apply canon_inr. apply canon_zero. apply (okQ pp WF). lia. }
  eexists. split; [reflexivity|].
  assert (G : forall l (c : ctT N), mwf c -> mwf (fold_left (fun c id => if is_has old id then c else cset c id z) l c) /\
     forall x, mget seq_dec (fold_left (fun c id => if is_has old id then c else cset c id z) l c) x = if in_dec string_dec x l then if is_has old x then mget seq_dec c x else Some z else mget seq_dec c x).
  { induction l as [|y l IH]; intros c M; cbn [fold_left]; [split; [assumption|reflexivity]|].
    assert (M' : mwf (if is_has old y then c else cset c y z)) by (destruct (is_has old y); [assumption|apply mwf_mset; assumption]).
    destruct (IH _ M') as [I1 I2]. split; [assumption|]. intros x. rewrite I2.
    destruct (in_dec string_dec x (y :: l)) as [I|I].
    - destruct (in_dec string_dec x l) as [J|J].
      + destruct (is_has old x) eqn:E; [|reflexivity]. destruct (is_has old y) eqn:E2; [reflexivity|]. unfold cset. rewrite mget_mset. destruct (seq_dec x y); [congruence|reflexivity].
      + destruct I as [->|I]; [|contradiction]. destruct (is_has old x); [reflexivity|]. unfold cset. rewrite mget_mset. destruct (seq_dec x x); [reflexivity|congruence].
    - cbn in I. destruct (in_dec string_dec x l) as [J|J]; [exfalso; apply I; right; assumption|].
      destruct (is_has old y); [reflexivity|]. unfold cset. rewrite mget_mset. destruct (seq_dec x y); [exfalso; apply I; left; congruence|reflexivity]. }
  destruct (G (o 1%nat (keys ids)) ct W1) as [G1 G2]. set (ct' := fold_left _ _ ct) in *.
  assert (P1 : forall x, In x (o 1%nat (keys ids)) <-> In x (keys ids)).
  { intros x. split; intros H; [apply (Permutation_in _ (O 1%nat (keys ids)))|apply (Permutation_in _ (Permutation_sym (O 1%nat (keys ids))))]; assumption. }
  assert (KS : forall x, In x (keys ct') <-> In x (keys ct) \/ In x (keys ids)).
  { intros x. rewrite <- !(mget_In_keys seq_dec ct'), G2. destruct (in_dec string_dec x (o 1%nat (keys ids))) as [I|I]; rewrite P1 in I.
    - split; [intros _; right; assumption|intros _]. destruct (is_has old x) eqn:E; [|discriminate]. apply B in E. apply (mget_In_keys seq_dec). apply E.
    - rewrite (mget_In_keys seq_dec). tauto. }
  assert (WC : wfct pp level fl ct').
  { split; [exact G1|]. split; [apply KS; left; exact W2|]. intros x p. rewrite G2.
    destruct (in_dec string_dec x (o 1%nat (keys ids))); [|apply W3]. destruct (is_has old x); [apply W3|]. intros [= <-]. exact WZ. }
  assert (KEEP : forall x, x = id0 \/ In x (keys ct) -> ~ In id0 (keys ids) -> mget seq_dec ct' x = mget seq_dec ct x).
  { intros x Hx N0. rewrite G2. destruct (in_dec string_dec x (o 1%nat (keys ids))) as [I|I]; [|reflexivity]. rewrite P1 in I.
    destruct (is_has old x) eqn:E; [reflexivity|]. exfalso. destruct Hx as [->|Hx]; [contradiction|].
    destruct (string_dec x id0) as [->|n]; [contradiction|]. assert (is_has old x = true) by (apply B; split; assumption). congruence. }
  split; [exact WC|]. split; [exact KS|]. split; [exact KEEP|].
  intros N0 s j Hj. unfold phase.
  assert (CE : forall x, x = id0 \/ In x (keys ct) -> comp ct' x = comp ct x) by (intros x Hx; unfold comp; rewrite KEEP; [reflexivity|assumption|assumption]).
  rewrite (CE id0 (or_introl eq_refl)). apply eqm_add; [reflexivity|].
  assert (S1 : exists new, Permutation (parties ct') (parties ct ++ new) /\ forall x, In x new -> ~ In x (keys ct) /\ In x (keys ids)).
  { exists (filter (fun x => if in_dec string_dec x (keys ct) then false else true) (parties ct')). split.
    - apply NoDup_Permutation; [apply parties_nodup; exact G1| |].
      + apply nodup_app; [apply parties_nodup; assumption|apply NoDup_filter; apply parties_nodup; exact G1|].
        intros x H1 H2. apply in_parties in H1. apply filter_In in H2. destruct H2 as [_ H2]. destruct (in_dec string_dec x (keys ct)); [discriminate|tauto].
      + intros x. rewrite in_app_iff, filter_In, !in_parties, KS. destruct (in_dec string_dec x (keys ct)); tauto || (split; [tauto|]; intros [?|[? ?]]; tauto).
    - intros x H. apply filter_In in H. destruct H as [H1 H2]. apply in_parties in H1. destruct H1 as [_ H1]. apply KS in H1. destruct (in_dec string_dec x (keys ct)); [discriminate|]. tauto. }
  destruct S1 as (new & PN & HN). rewrite (Lsum_perm _ _ _ PN), Lsum_app.
  assert (Z0 : eqm (mq (Qi pp j)) (Lsum new (fun id => mul (pvalue pp (comp ct' id) j) (s id))) R0).
  { rewrite <- (Lsum_0 new). apply Lsum_eqm. intros x Hx. destruct (HN x Hx) as [X1 X2].
    assert (EZ : comp ct' x = z).
    { unfold comp. rewrite G2. destruct (in_dec string_dec x (o 1%nat (keys ids))) as [I|I]; [|exfalso; apply I; apply P1; assumption].
      destruct (is_has old x) eqn:E; [apply B in E; tauto|reflexivity]. }
    rewrite EZ. assert (PV : eqm (mq (Qi pp j)) (pvalue pp z j) R0).
    { unfold pvalue, z. cbn [pntt prows]. rewrite PL. unfold row. rewrite nth_tab by lia. destruct (pntt (comp ct id0)); [|reflexivity]. apply intt_R0. apply (okQ pp WF). lia. }
    transitivity (mul R0 (s x)); [apply eqm_mul; [exact PV|reflexivity]|rewrite mul_0_l; reflexivity]. }
  transitivity (add (Lsum (parties ct) (fun id => mul (pvalue pp (comp ct' id) j) (s id))) R0); [apply eqm_add; [reflexivity|exact Z0]|].
  apply eqm_eq. rewrite (Lsum_ext (parties ct) _ (fun id => mul (pvalue pp (comp ct id) j) (s id))); [apply add_0_r|].
  intros x Hx. apply in_parties in Hx. rewrite CE by tauto. reflexivity.
Qed.
Print Assumptions C03_pad.

(** ** C14 *)
(** what decryption of a fresh encryption adds to the plaintext *)
Definition fresh_error {N} (e0 u e e1 s : R N) : R N := add e0 (add (mul u e) (mul e1 s)).

Theorem C14_fresh : forall N pp B B1 (s e u e0 e1 : R N) ss se su se0 se1 id crs c (o : IdSetModel.order) (pt out : poly N) ct fl,
  wfp N pp -> small_ok pp B -> small_ok pp B1 -> order_ok o -> id <> id0 ->
  is_sample pp B1 s ss -> is_sample pp B1 u su -> is_sample pp B e se -> is_sample pp B e0 se0 -> is_sample pp B e1 se1 ->
  mget Z.eq_dec crs 0 = Some c -> crs_ok pp c ->
  wfplain pp pt -> wfplain pp (comp ct id0) -> pntt (comp ct id0) = fl -> mwf ct -> (forall x, In x (keys ct) <-> x = id0 \/ x = id) ->
  let sk := genSecretKeyFromSampler pp id ss in
  let level := Nat.min (plevel pt) (plevel (comp ct id0)) in
  exists pk ct' p, GenPublicKey pp crs sk se = Ok pk /\ Encrypt pp pt pk ct su se0 se1 = Ok ct' /\
    (forall x, In x (keys ct') <-> x = id0 \/ x = id) /\ ctLevel ct' = Ok level /\
    Decrypt pp o ct' [(id, sk)] out = Ok p /\
    (forall j, (j <= level)%nat -> (j <= plevel out)%nat ->
       canon (Qi pp j) (row (prows p) j) /\
       eqm (mq (Qi pp j)) (pvalue pp (Pol (prows p) fl) j) (add (pvalue pp pt j) (fresh_error e0 u e e1 s))) /\
    bnd (fresh_error e0 u e e1 s) (B * (1 + 2 * Z.of_nat N * B1)).
Proof.
  intros N pp B B1 s e u e0 e1 ss se su se0 se1 id crs c o pt out ct fl WF SM SM1 O NI S1 S2 S3 S4 S5 GC CO WP WC FL MW KS sk level.
  pose proof (genSecretKey_ok pp WF B1 s id ss SM1 S1) as KV. fold sk in KV.
  destruct (GenPublicKey_ok pp WF B e se crs c sk s SM S3 KV GC CO) as (pk & P1 & P2 & P3 & P4).
  assert (LV : (level < length (Qm pp))%nat) by (unfold level, plevel; destruct WP as [[? ?] _]; lia).
  assert (LM : forall j, (j <= level)%nat -> vi pp (maxLevel pp) (MQ j)) by (intros j Hj; cbn; unfold maxLevel; lia).
  assert (LM' : forall j, (j <= level)%nat -> (j <= maxLevel pp)%nat) by (intros j Hj; unfold maxLevel; lia).
  assert (OKM : forall j, (j <= level)%nat -> okmod (N := N) (Qi pp j)) by (intros j Hj; apply (okQ pp WF); lia).
  assert (IDE : pk_id pk = id) by (rewrite P2; reflexivity).
  destruct (Encrypt_ok pp WF pt pk ct su se0 se1 u e0 e1 e s (fun j => raw_val pp (nth 0 c dQP) (MQ j)) (fun _ => s)) as (ct' & E1 & E2 & E3 & E4); rewrite ?IDE; trivial.
  - intros j Hj. apply WP. unfold level, plevel in Hj. destruct WP as [[? ?] _]. lia.
  - intros j Hj. destruct S2 as [_ S2]. destruct (S2 j (LM' j Hj)) as [A1 A2]. split; [|exact A2]. apply (inr_wrd (Qi pp j)); [apply OKM; exact Hj|exact A1].
  - intros j Hj. destruct S4 as [_ S4]. apply S4. apply LM'. exact Hj.
  - intros j Hj. destruct S5 as [_ S5]. apply S5. apply LM'. exact Hj.
  - intros j Hj. destruct (P4 _ (LM j Hj)) as (A1 & A2 & A3 & A4). split; assumption.
  - intros j Hj. destruct (P4 _ (LM j Hj)) as (A1 & A2 & A3 & A4). split; assumption.
  - rewrite IDE in E3. fold level in E2, E4. rewrite FL in E2.
    assert (PT : forall x, In x (parties ct') <-> x = id).
    { intros x. rewrite in_parties, E3. split; [tauto|]. intros ->. tauto. }
    destruct (Decrypt_ok pp WF level fl o ct' (fun _ => s) [(id, sk)] out LV O E2) as [D _].
    { split; [unfold mwf; cbn; repeat constructor; tauto|]. intros x k. cbn [mget]. destruct (seq_dec x id) as [->|]; [|discriminate].
      intros [= <-]. split; [reflexivity|intros _; exact KV]. }
    destruct D as (p & D1 & D2 & D3 & D4); [intros x Hx; apply PT in Hx; subst x; left; reflexivity|].
    exists pk, ct', p. split; [exact P1|]. split; [exact E1|]. split; [exact E3|]. split; [apply (wfct_level _ _ _ _ E2)|]. split; [exact D1|]. split.
    + intros j H1 H2. destruct (D4 j ltac:(lia)) as [A1 A2]. split; [exact A1|]. rewrite A2. apply E4. exact H1.
    + unfold fresh_error. destruct S1 as [S1 _], S2 as [S2 _], S3 as [S3 _], S4 as [S4 _], S5 as [S5 _].
      apply (bnd_le _ (B + (Z.of_nat N * B1 * B + Z.of_nat N * B * B1))); [|lia].
      apply bnd_add; [assumption|]. apply bnd_add; apply bnd_mul; assumption.
Qed.
Print Assumptions C14_fresh.

(** the case of the property: ternary secret and mask, error at most B (1 + 2 N) *)
Corollary C14_ternary : forall N pp B (s e u e0 e1 : R N) ss se su se0 se1 id crs c (o : IdSetModel.order) (pt out : poly N) ct fl,
  wfp N pp -> small_ok pp B -> small_ok pp 1 -> order_ok o -> id <> id0 ->
  is_sample pp 1 s ss -> is_sample pp 1 u su -> is_sample pp B e se -> is_sample pp B e0 se0 -> is_sample pp B e1 se1 ->
  mget Z.eq_dec crs 0 = Some c -> crs_ok pp c ->
  wfplain pp pt -> wfplain pp (comp ct id0) -> pntt (comp ct id0) = fl -> mwf ct -> (forall x, In x (keys ct) <-> x = id0 \/ x = id) ->
  let sk := genSecretKeyFromSampler pp id ss in
  exists pk ct' p E, GenPublicKey pp crs sk se = Ok pk /\ Encrypt pp pt pk ct su se0 se1 = Ok ct' /\ Decrypt pp o ct' [(id, sk)] out = Ok p /\
    bnd E (B * (1 + 2 * Z.of_nat N)) /\
    forall j, (j <= Nat.min (plevel pt) (plevel (comp ct id0)))%nat -> (j <= plevel out)%nat ->
       eqm (mq (Qi pp j)) (pvalue pp (Pol (prows p) fl) j) (add (pvalue pp pt j) E).
Proof.
  intros N pp B s e u e0 e1 ss se su se0 se1 id crs c o pt out ct fl WF SM SM1 O NI S1 S2 S3 S4 S5 GC CO WP WC FL MW KS sk.
  destruct (C14_fresh N pp B 1 s e u e0 e1 ss se su se0 se1 id crs c o pt out ct fl) as (pk & ct' & p & A1 & A2 & _ & _ & A3 & A4 & A5); trivial.
  exists pk, ct', p, (fresh_error e0 u e e1 s). repeat (split; [assumption|]). split; [rewrite Z.mul_1_r in A5; exact A5|].
  intros j H1 H2. apply A4; assumption.
Qed.
Print Assumptions C14_ternary.

(** ** C15 *)
Lemma incl_dec' (a b : list string) : {incl a b} + {~ incl a b}.
Proof.
  induction a as [|x a IH]; [left; intros y []|]. destruct (in_dec string_dec x b) as [I|I].
  - destruct IH as [J|J]; [left; intros y [<-|H]; [assumption|apply J; assumption]|]. right. intros H. apply J. intros y Hy. apply H. right. assumption.
  - right. intros H. apply I. apply H. left. reflexivity.
Defined.
(** the value: c_0 + sum c_i s_i, the same for all iteration orders [o] (of the ciphertext map, of the identity set, of the key map) *)
Theorem C15_value : forall N pp level fl (o : IdSetModel.order) (ct : ctT N) s sks (pt : poly N), wfp N pp -> (level < length (Qm pp))%nat -> order_ok o ->
  wfct pp level fl ct -> keys_ok pp (fun id => In id (parties ct)) s sks -> incl (parties ct) (keys sks) ->
  exists p, Decrypt pp o ct sks pt = Ok p /\ plevel p = Nat.min level (plevel pt) /\
    forall j, (j <= Nat.min level (plevel pt))%nat -> canon (Qi pp j) (row (prows p) j) /\ eqm (mq (Qi pp j)) (pvalue pp (Pol (prows p) fl) j) (phase pp s ct j).
Proof.
  intros N pp level fl o ct s sks pt WF HL O W K I. destruct (Decrypt_ok pp WF level fl o ct s sks pt HL O W K) as [D _].
  destruct (D I) as (p & D1 & D2 & D3 & D4). exists p. split; [exact D1|]. split; [unfold plevel at 1; rewrite D2; apply Nat.sub_0_r|exact D4].
Qed.
Print Assumptions C15_value.

(** panics exactly when a party of the ciphertext has no key *)
Theorem C15_missing_key : forall N pp level fl (o : IdSetModel.order) (ct : ctT N) s sks (pt : poly N), wfp N pp -> (level < length (Qm pp))%nat -> order_ok o ->
  wfct pp level fl ct -> keys_ok pp (fun id => In id (parties ct)) s sks ->
  (Decrypt pp o ct sks pt = Panic <-> exists id, id <> id0 /\ In id (keys ct) /\ ~ In id (keys sks)).
Proof.
  intros N pp level fl o ct s sks pt WF HL O W K. destruct (Decrypt_ok pp WF level fl o ct s sks pt HL O W K) as [D1 D2].
  destruct (incl_dec' (parties ct) (keys sks)) as [I|I].
  - destruct (D1 I) as (p & E & _). rewrite E. split; [discriminate|]. intros (id & A & B & C). exfalso. apply C. apply I. apply in_parties. tauto.
  - split; [intros _|intros _; apply D2; exact I].
    destruct (Exists_dec (fun id => ~ In id (keys sks)) (parties ct)) as [X|X].
    + intros x. destruct (in_dec string_dec x (keys sks)); [right|left]; tauto.
    + apply Exists_exists in X. destruct X as (x & X1 & X2). apply in_parties in X1. exists x. tauto.
    + exfalso. apply I. intros x Hx. destruct (in_dec string_dec x (keys sks)) as [Y|Y]; [exact Y|]. exfalso. apply X. apply Exists_exists. exists x. tauto.
Qed.
Print Assumptions C15_missing_key.

(** exactly the same plaintext (bit for bit) for two iteration orders and two key sets with keys of the same secrets for the parties
    of the ciphertext; the key sets may differ in the keys of all other parties *)
Theorem C15_order_and_irrelevant_keys : forall N pp level fl (o1 o2 : IdSetModel.order) (ct : ctT N) s sks1 sks2 (pt : poly N), wfp N pp -> (level < length (Qm pp))%nat ->
  order_ok o1 -> order_ok o2 -> wfct pp level fl ct ->
  keys_ok pp (fun id => In id (parties ct)) s sks1 -> keys_ok pp (fun id => In id (parties ct)) s sks2 ->
  (forall id, In id (parties ct) -> (In id (keys sks1) <-> In id (keys sks2))) ->
  Decrypt pp o1 ct sks1 pt = Decrypt pp o2 ct sks2 pt.
Proof.
  intros N pp level fl o1 o2 ct s sks1 sks2 pt WF HL O1 O2 W K1 K2 SAME.
  destruct (Decrypt_ok pp WF level fl o1 ct s sks1 pt HL O1 W K1) as [D1 D1'].
  destruct (Decrypt_ok pp WF level fl o2 ct s sks2 pt HL O2 W K2) as [D2 D2'].
  destruct (incl_dec' (parties ct) (keys sks1)) as [I|I].
  - destruct (D1 I) as (p & A1 & A2 & A3 & A4). destruct D2 as (p' & B1 & B2 & B3 & B4); [intros x Hx; apply SAME; [exact Hx|apply I; exact Hx]|].
    rewrite A1, B1. f_equal. destruct p as [r f], p' as [r' f']. cbn [prows pntt] in *. f_equal; [|congruence].
    apply (nth_ext _ _ R0 R0); [congruence|]. intros j Hj. rewrite A2 in Hj. destruct (A4 j ltac:(lia)) as [C1 C2], (B4 j ltac:(lia)) as [C3 C4].
    assert (OK : okmod (N := N) (Qi pp j)) by (apply (okQ pp WF); lia). apply (canon_eqm (Qi pp j)); [apply OK|assumption|assumption|].
    rewrite <- C4 in C2. unfold pvalue in C2. cbn [pntt prows] in C2. destruct fl; [|exact C2].
    apply (ntt_eqm _ (proj1 OK)) in C2. assert (X : forall y, eqm (mq (Qi pp j)) (ntt (Qi pp j) (intt (Qi pp j) y)) y) by (intros y; apply ntt_intt; apply OK).
    unfold row in *. rewrite <- (X (nth j r R0)), <- (X (nth j r' R0)). rewrite C2. reflexivity.
  - rewrite (D1' I), D2'; [reflexivity|]. intros J. apply I. intros x Hx. apply SAME; [exact Hx|apply J; exact Hx].
Qed.
Print Assumptions C15_order_and_irrelevant_keys.

(** partial decryptions by two parties commute: the same components, bit for bit *)
Theorem C15_partial_commute : forall N pp level fl (ct : ctT N) sk1 sk2 (s1 s2 : R N), wfp N pp -> (level < length (Qm pp))%nat -> wfct pp level fl ct ->
  sk_id sk1 <> id0 -> sk_id sk2 <> id0 -> sk_id sk1 <> sk_id sk2 -> In (sk_id sk1) (keys ct) -> In (sk_id sk2) (keys ct) ->
  mval pp (maxLevel pp) (sk_val sk1) (fun _ => s1) -> mval pp (maxLevel pp) (sk_val sk2) (fun _ => s2) ->
  exists a b, (x <- PartialDecrypt pp ct sk1 ;; PartialDecrypt pp x sk2) = Ok a /\ (x <- PartialDecrypt pp ct sk2 ;; PartialDecrypt pp x sk1) = Ok b /\
    forall id, mget seq_dec a id = mget seq_dec b id.
Proof.
  intros N pp level fl ct sk1 sk2 s1 s2 WF HL W Z1 Z2 D I1 I2 M1 M2.
  set (s := fun id => if string_dec id (sk_id sk1) then s1 else s2).
  assert (E1 : s (sk_id sk1) = s1) by (unfold s; destruct (string_dec (sk_id sk1) (sk_id sk1)); congruence).
  assert (E2 : s (sk_id sk2) = s2) by (unfold s; destruct (string_dec (sk_id sk2) (sk_id sk1)); congruence).
  rewrite <- E1 in M1. rewrite <- E2 in M2.
  assert (TWO : forall ka kb, sk_id ka <> id0 -> sk_id kb <> id0 -> sk_id ka <> sk_id kb -> In (sk_id ka) (keys ct) -> In (sk_id kb) (keys ct) ->
    mval pp (maxLevel pp) (sk_val ka) (fun _ => s (sk_id ka)) -> mval pp (maxLevel pp) (sk_val kb) (fun _ => s (sk_id kb)) ->
    exists a, (x <- PartialDecrypt pp ct ka ;; PartialDecrypt pp x kb) = Ok a /\ wfct pp level fl a /\ (forall x, In x (keys a) <-> (x <> sk_id ka /\ x <> sk_id kb) /\ In x (keys ct)) /\
      (forall j, (j <= level)%nat -> eqm (mq (Qi pp j)) (phase pp s a j) (phase pp s ct j)) /\
      (forall j, (j <= level)%nat -> canon (Qi pp j) (row (prows (comp a id0)) j)) /\
      (forall x, x <> sk_id ka -> x <> sk_id kb -> x <> id0 -> mget seq_dec a x = mget seq_dec ct x)).
  { intros ka kb A1 A2 A3 A4 A5 A6 A7. destruct (PartialDecrypt_ok pp WF level fl ct ka s HL W A1 A4 A6) as (x & X1 & X2 & X3 & X4 & X5 & X6).
    destruct (PartialDecrypt_ok pp WF level fl x kb s HL X2 A2 ltac:(apply X3; split; [congruence|assumption]) A7) as (y & Y1 & Y2 & Y3 & Y4 & Y5 & Y6).
    exists y. rewrite X1. cbn [rbind]. split; [exact Y1|]. split; [exact Y2|]. split; [intros z; rewrite Y3, X3; tauto|].
    split; [intros j Hj; rewrite Y4, X4 by exact Hj; reflexivity|]. split; [exact Y5|]. intros z B1 B2 B3. rewrite Y6, X6 by assumption. reflexivity. }
  destruct (TWO sk1 sk2) as (a & A1 & A2 & A3 & A4 & A5 & A6); trivial. destruct (TWO sk2 sk1) as (b & B1 & B2 & B3 & B4 & B5 & B6); trivial; [congruence|].
  exists a, b. split; [exact A1|]. split; [exact B1|].
  assert (KE : forall x, In x (keys a) <-> In x (keys b)) by (intros x; rewrite A3, B3; tauto).
  assert (OTH : forall x, x <> id0 -> mget seq_dec a x = mget seq_dec b x).
  { intros x Hx. destruct (in_dec string_dec x (keys a)) as [I|I].
    - apply A3 in I. rewrite A6, B6 by tauto. reflexivity.
    - assert (~ In x (keys b)) by (rewrite <- KE; exact I). apply (mget_None seq_dec) in I. apply (mget_None seq_dec) in H. congruence. }
  intros x. destruct (string_dec x id0) as [->|n]; [|apply OTH; exact n].
  rewrite (mget_comp a) by apply A2. rewrite (mget_comp b) by apply B2. f_equal.
  pose proof (wfct_comp pp _ _ _ _ A2 (proj1 (proj2 A2))) as (P1 & P2 & P3). pose proof (wfct_comp pp _ _ _ _ B2 (proj1 (proj2 B2))) as (Q1 & Q2 & Q3).
  assert (V : forall j, (j <= level)%nat -> eqm (mq (Qi pp j)) (pvalue pp (comp a id0) j) (pvalue pp (comp b id0) j)).
  { intros j Hj. pose proof (A4 j Hj) as X. rewrite <- (B4 j Hj) in X.
    rewrite (phase_list pp s a j (parties b)) in X; [|apply A2|apply parties_nodup; apply B2|intros y; rewrite in_parties, KE; reflexivity].
    unfold phase in X. rewrite (Lsum_ext (parties b) _ (fun id => mul (pvalue pp (comp b id) j) (s id))) in X.
    2:{ intros y Hy. apply in_parties in Hy. unfold comp. rewrite OTH by tauto. reflexivity. }
    set (T := Lsum (parties b) _) in X. assert (Y : eqm (mq (Qi pp j)) (sub (add (pvalue pp (comp a id0) j) T) T) (sub (add (pvalue pp (comp b id0) j) T) T)) by (apply eqm_sub; [exact X|reflexivity]).
    assert (CA : forall y, sub (add y T) T = y) by (intros y; apply R_ext; intros i _; rewrite co_sub, co_add; lia). rewrite !CA in Y. exact Y. }
  destruct (comp a id0) as [r f], (comp b id0) as [r' f']. cbn [prows pntt] in *. subst f f'. f_equal.
  apply (nth_ext _ _ R0 R0); [congruence|]. intros j Hj. rewrite P1 in Hj.
  assert (OK : okmod (N := N) (Qi pp j)) by (apply (okQ pp WF); lia). apply (canon_eqm (Qi pp j)); [apply OK|apply A5; lia|apply B5; lia|].
  pose proof (V j ltac:(lia)) as C2. unfold pvalue in C2. cbn [pntt prows] in C2. destruct fl; [|exact C2].
  apply (ntt_eqm _ (proj1 OK)) in C2. assert (X : forall y, eqm (mq (Qi pp j)) (ntt (Qi pp j) (intt (Qi pp j) y)) y) by (intros y; apply ntt_intt; apply OK).
  unfold row in *. rewrite <- (X (nth j r R0)), <- (X (nth j r' R0)). rewrite C2. reflexivity.
Qed.
Print Assumptions C15_partial_commute.

(** on the heap: Decrypt writes the plaintext object and otherwise only objects it allocated itself, whatever the keys *)
Theorem C15_arguments_unchanged : forall N pp (o : IdSetModel.order) (h : heap N) c sks pt, hok h c -> (pt < length h)%nat -> ~ In pt (map snd c) ->
  (forall n l x, In x (o n l) -> In x l) ->
  match hDecrypt pp o h c sks pt with
  | Panic => Decrypt pp o (view h c) sks (nth pt h dpoly) = Panic
  | Ok h' => Decrypt pp o (view h c) sks (nth pt h dpoly) = Ok (nth pt h' dpoly) /\ view h' c = view h c /\
      forall r, (r < length h)%nat -> r <> pt -> nth r h' dpoly = nth r h dpoly
  end.
Proof.
  intros N pp o h c sks pt K P NP O. pose proof (hDecrypt_ok pp o h c sks pt K P NP O) as H.
  destruct (Decrypt pp o (view h c) sks (nth pt h dpoly)) as [p|].
  - destruct H as (h' & A & B & C & D). rewrite A. split; [congruence|]. split; [|exact D].
    unfold view. apply map_ext_in. intros [id r] I. f_equal. apply (in_map snd) in I. cbn in I. apply D; [apply K; exact I|]. intros ->. contradiction.
  - rewrite H. reflexivity.
Qed.
Print Assumptions C15_arguments_unchanged.

(** ** C41 *)
(** if the flags of ciphertext and plaintext agree, the plaintext stands for the decryption *)
Theorem C41_output_domain : forall N pp level (o : IdSetModel.order) (ct : ctT N) s sks (pt : poly N), wfp N pp -> (level < length (Qm pp))%nat -> order_ok o ->
  wfct pp level (pntt pt) ct -> keys_ok pp (fun id => In id (parties ct)) s sks -> incl (parties ct) (keys sks) ->
  exists p, Decrypt pp o ct sks pt = Ok p /\ pntt p = pntt pt /\
    forall j, (j <= Nat.min level (plevel pt))%nat -> eqm (mq (Qi pp j)) (pvalue pp p j) (phase pp s ct j).
Proof.
  intros N pp level o ct s sks pt WF HL O W K I. destruct (Decrypt_ok pp WF level _ o ct s sks pt HL O W K) as [D _].
  destruct (D I) as (p & D1 & D2 & D3 & D4). exists p. split; [exact D1|]. split; [exact D3|]. intros j Hj. destruct (D4 j Hj) as [_ D5].
  destruct p as [r f]. cbn [pntt prows] in *. subst f. exact D5.
Qed.
Print Assumptions C41_output_domain.

(** the property is false of the code: an NTT-domain ciphertext decrypted into a coefficient-domain plaintext *)
Definition ex41 : ctT 8 := [(id0, Pol [ex_poly [1; 0; 0; 0; 0; 0; 0; 0]] true)].
Theorem C41_output_domain_refuted : exists (o : IdSetModel.order) (ct : ctT 8) s (sks : gomap string (secretKey 8)) (pt p : poly 8),
  wfp 8 ex_pp /\ order_ok o /\ wfct ex_pp 0 true ct /\ keys_ok ex_pp (fun id => In id (parties ct)) s sks /\ incl (parties ct) (keys sks) /\
  Decrypt ex_pp o ct sks pt = Ok p /\ plevel pt = 0%nat /\ ~ eqm (mq (Qi ex_pp 0)) (pvalue ex_pp p 0) (phase ex_pp s ct 0).
Proof.
  exists (fun _ l => l), ex41, (fun _ => R0), nil, (Pol [R0] false), (Pol [ex_poly [1; 0; 0; 0; 0; 0; 0; 0]] false).
  split; [apply ex_wf|]. split; [intros n l; apply Permutation_refl|]. split.
  { split; [repeat constructor; intros []|]. split; [left; reflexivity|]. intros id p. unfold ex41. cbn [mget]. destruct (seq_dec id id0); [|discriminate].
    intros [= <-]. split; [reflexivity|]. split; [reflexivity|]. intros j Hj. assert (j = 0)%nat by lia. subst j. cbn [prows].
    intros i Hi. cbn [row nth Qi ex_pp Qm mq]. unfold ex_poly. rewrite co_mkR by assumption. do 8 (destruct i as [|i]; [cbn; lia|]). lia. }
  split; [split; [constructor|intros id k; discriminate]|]. split; [intros x []|]. split; [vm_compute; f_equal; f_equal; f_equal; apply R_ext; intros i Hi; do 8 (destruct i as [|i]; [reflexivity|]); lia|].
  split; [reflexivity|]. intros H. assert (Q0 : mq (Qi ex_pp 0) <> 0) by discriminate. rewrite (eqm_eqmod _ _ _ Q0) in H. specialize (H 0%nat ltac:(lia)). vm_compute in H. discriminate.
Qed.
Print Assumptions C41_output_domain_refuted.

(** ** the hypotheses can be met *)
Definition ex_pt (fl : bool) : poly 8 := Pol (rows_of ex_pp (ex_poly [30; -41; 7; 0; 0; 12; 1; -5])) fl.
Definition ex_ord : IdSetModel.order := fun n l => if Nat.even n then l else rev l.
Lemma ex_ord_ok : order_ok ex_ord.
Proof. intros n l. unfold ex_ord. destruct (Nat.even n); [apply Permutation_refl|apply Permutation_sym, Permutation_rev]. Qed.
Definition ex_ids : idset := [("alice"%string, tt); ("bob"%string, tt)].
Lemma ex_ct_wf fl : exists ct : ctT 8, wfct ex_pp 2 fl ct /\ (forall x, In x (keys ct) <-> x = id0 \/ In x ["alice"; "bob"]%string).
Proof.
  exists (map (fun id => (id, ex_pt fl)) [id0; "alice"; "bob"]%string).
  destruct (rows_of_sample ex_pp 8 41 (ex_poly [30; -41; 7; 0; 0; 12; 1; -5]) ex_wf) as [_ S]; [apply bnd_poly; [lia|reflexivity]|].
  split; [|intros x; cbn; intuition]. split; [unfold mwf; cbn; repeat constructor; cbn; intuition discriminate|]. split; [left; reflexivity|].
  intros id p. cbn [map mget]. intros H. assert (p = ex_pt fl) by (repeat match type of H with context [if ?b then _ else _] => destruct b end; congruence). subst p.
  split; [reflexivity|]. split; [reflexivity|]. intros j Hj. apply S. exact Hj.
Qed.
Example C03_nonvacuous : wfp 8 ex_pp /\ ord1_ok (ex_ord 1%nat) /\ ~ In id0 (keys ex_ids) /\ exists ct : ctT 8, wfct ex_pp 2 false ct.
Proof.
  split; [apply ex_wf|]. split; [intros l; apply ex_ord_ok|]. split; [cbn; intuition discriminate|]. destruct (ex_ct_wf false) as (ct & A & _). exists ct. exact A.
Qed.
Example C14_nonvacuous : small_ok ex_pp 3 /\ small_ok ex_pp 1 /\ is_sample ex_pp 1 ex_s (rows_of ex_pp ex_s) /\ is_sample ex_pp 3 (ex_e 1) (rows_of ex_pp (ex_e 1)) /\
  (exists c, mget Z.eq_dec ex_crs 0 = Some c /\ crs_ok ex_pp c) /\ wfplain ex_pp (ex_pt false) /\ wfplain ex_pp (ex_pt true) /\
  let ct := NewCiphertext (ex_ord 1%nat) [("alice"%string, tt)] 2 : ctT 8 in
  wfplain ex_pp (comp ct id0) /\ mwf ct /\ forall x, In x (keys ct) <-> x = id0 \/ x = "alice"%string.
Proof.
  destruct (rows_of_sample ex_pp 8 41 (ex_poly [30; -41; 7; 0; 0; 12; 1; -5]) ex_wf) as [_ S]; [apply bnd_poly; [lia|reflexivity]|].
  split; [apply ex_small|]. split; [destruct ex_small as [A B]; split; [lia|intros k Hk; specialize (B k Hk); lia]|].
  split; [apply rows_of_sample; [apply ex_wf|apply bnd_poly; [lia|reflexivity]]|]. split; [apply ex_e_sample|].
  split. { exists (crs_entry ex_pp (ex_u 0)). split; [reflexivity|apply ex_crs_entry; lia]. }
  split; [split; [cbn; lia|intros j Hj; apply S; cbn in Hj |- *; lia]|]. split; [split; [cbn; lia|intros j Hj; apply S; cbn in Hj |- *; lia]|].
  destruct (C03_new_ciphertext 8 ex_pp (ex_ord 1%nat) [("alice"%string, tt)] 2 ex_wf) as (A & B & C & D); [intros l; apply ex_ord_ok|cbn; lia|].
  cbn zeta. pose proof (wfct_comp ex_pp _ _ _ _ A (proj1 (proj2 A))) as (P1 & P2 & P3).
  split; [split; [rewrite P1; cbn; lia|intros j Hj; apply P3; lia]|]. split; [apply A|]. intros x. rewrite B. cbn. intuition.
Qed.
Definition ex_sks : gomap string (secretKey 8) := [("carol"%string, ex_sk "carol"); ("bob"%string, ex_sk "bob"); ("alice"%string, ex_sk "alice")].
Example C15_nonvacuous : exists (ct : ctT 8), wfct ex_pp 2 true ct /\ order_ok ex_ord /\
  keys_ok ex_pp (fun id => In id (parties ct)) (fun _ => ex_s) ex_sks /\ incl (parties ct) (keys ex_sks) /\
  keys_ok ex_pp (fun id => In id (parties ct)) (fun _ => ex_s) [("bob"%string, ex_sk "bob")] /\ ~ incl (parties ct) (keys [("bob"%string, ex_sk "bob")]).
Proof.
  destruct (ex_ct_wf true) as (ct & A & B). exists ct. split; [exact A|]. split; [apply ex_ord_ok|]. split.
  { split; [unfold mwf; cbn; repeat constructor; cbn; intuition discriminate|]. intros id k. unfold ex_sks. cbn [mget].
    intros H. repeat match type of H with context [if ?b then _ else _] => destruct b as [->|] end; try discriminate; injection H as <-; (split; [reflexivity|intros _; apply ex_sk_val]). }
  split; [intros x Hx; apply in_parties in Hx; rewrite B in Hx; cbn in *; intuition|]. split.
  { split; [unfold mwf; cbn; repeat constructor; intuition|]. intros id k. cbn [mget].
    intros H. destruct (seq_dec id "bob") as [->|]; try discriminate; injection H as <-; (split; [reflexivity|intros _; apply ex_sk_val]). }
  intros I. assert (X : In "alice"%string (parties ct)) by (apply in_parties; split; [discriminate|apply B; right; left; reflexivity]). apply I in X. cbn in X. destruct X as [X|[]]; discriminate.
Qed.
