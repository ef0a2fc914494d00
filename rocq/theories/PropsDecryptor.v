(** C17: what a mkckks Decryptor returns after a history of calls. *)
From Coq Require Import Znumtheory Setoid Morphisms.
From Verif Require Import Base IdSetModel IdSetSpec IdSetProofs KeySetModel NumTheory Negacyclic Ntt Word BasisExt BasisExtProofs Rows RlweModel KeyGenModel SchemeSpec ExtProd ExtProps Galois KeyGenProofs Instance CtModel CtSpec CtProofs EncDecProofs PropsEnc PropsCkksEx DecryptorModel.
From Verif Require PropsBfv.
Open Scope Z_scope.

(** What Decode reads from the rows of a plaintext polynomial (lattigo ckks encoder: CRT reconstruction over the rows present, centred):
    [m] is the integer polynomial of the rows of [p]. *)
Definition decoded {N} (pp : rparams) (p : poly N) (m : R N) : Prop :=
  (forall j, (j < length (prows p))%nat -> eqm (mq (Qi pp j)) m (row (prows p) j)) /\
  forall i, (i < N)%nat -> 2 * Z.abs (co m i) < prodl (firstn (length (prows p)) (Qs pp)).
(** the lowest level seen: min of [l] and of the levels of the ciphertexts of the history *)
Definition lowest (l : nat) (levels : list nat) : nat := fold_right Nat.min l levels.

(** the calls of a history: any well-formed ciphertexts of the given levels, any domain, any key maps, any map orders *)
Definition calls_at {N} (pp : rparams) (h : list (call N)) (levels : list nat) : Prop :=
  Forall2 (fun k l => (l < length (Qm pp))%nat /\ order_ok (call_o k) /\ exists fl, wfct pp l fl (call_c k)) h levels.

Section Dec.
  Context {N : nat} (pp : rparams) (WF : wfp N pp).
  Notation R := (R N). Notation ct := (ctT N).

  Lemma lenQ_pos : (0 < length (Qm pp))%nat.
  Proof. exact (wf_Qpos _ _ WF). Qed.

  Lemma truncPool_len (p : poly N) lc : (0 < length (prows p))%nat -> length (prows (truncPool p lc)) = S (Nat.min lc (plevel p)).
  Proof. intros H. unfold truncPool. cbn [prows]. rewrite firstn_length. unfold plevel. lia. Qed.

  Lemma step_ok (o : IdSetModel.order) pool (c : ct) sks l fl : order_ok o -> wfct pp l fl c -> (0 < length (prows pool))%nat ->
    length (prows (fst (ckDecrypt pp o pool c sks))) = S (Nat.min l (plevel pool)) /\ pntt (fst (ckDecrypt pp o pool c sks)) = pntt pool.
  Proof.
    intros O W LP. pose proof W as (W1 & W2 & W3). destruct (CopyNew_ok (o 3%nat) c (O 3%nat) W1 W2) as (c1 & C1 & C2 & C3).
    pose proof (wfct_ext pp l fl c c1 C2 C3 W) as Wc1. unfold ckDecrypt. rewrite C1, (wfct_level pp l fl c1 Wc1).
    pose proof (truncPool_len pool l LP) as TL. assert (TP : plevel (truncPool pool l) = Nat.min l (plevel pool)) by (unfold plevel at 1; rewrite TL; lia).
    destruct (Decrypt pp o c1 sks (truncPool pool l)) as [p|] eqn:E; cbn [fst]; [|split; [exact TL|reflexivity]].
    unfold Decrypt in E. rewrite (wfct_level pp l fl c1 Wc1) in E. cbn [rbind] in E. rewrite TP in E.
    destruct (CopyNew (o 0%nat) c1) as [c2|]; [|discriminate]. cbn [rbind] in E. destruct (IDSetOf (o 1%nat) c2) as [ids|]; [|discriminate]. cbn [rbind] in E.
    destruct (decLoop pp ids sks (o 2%nat (keys sks)) c2) as [c3|]; [|discriminate]. cbn [rbind] in E. destruct (1 <? length c3)%nat; [discriminate|].
    destruct (cget c3 id0) as [p0|]; [|discriminate]. cbn [rbind] in E. injection E as <-. cbn [prows pntt]. rewrite lvlQ1_len. split; [lia|reflexivity].
  Qed.

  Lemma lowest_le l ls : (lowest l ls <= l)%nat.
  Proof. induction ls as [|x ls IH]; cbn; [lia|]. fold (lowest l ls). lia. Qed.
  Lemma lowest_min a b ls : Nat.min a (lowest b ls) = Nat.min (lowest a ls) b.
  Proof. induction ls as [|x ls IH]; cbn; [lia|]. fold (lowest b ls) (lowest a ls). lia. Qed.

  Lemma history_len h levels : calls_at pp h levels -> length (prows (poolAfter pp h)) = S (lowest (maxLevel pp) levels) /\ pntt (poolAfter (N := N) pp h) = false.
  Proof.
    intros H. unfold poolAfter.
    assert (G : forall pool, (0 < length (prows pool))%nat ->
      let f := fold_left (fun p k => fst (ckDecrypt pp (call_o k) p (call_c k) (call_k k))) h pool in
      length (prows f) = S (lowest (plevel pool) levels) /\ pntt f = pntt pool).
    { induction H as [|k l h ls (A & B & fl & C) H IH]; intros pool LP; cbn [fold_left].
      - unfold lowest, plevel. cbn. split; [lia|reflexivity].
      - destruct (step_ok (call_o k) pool (call_c k) (call_k k) l fl B C LP) as [S1 S2].
        specialize (IH (fst (ckDecrypt pp (call_o k) pool (call_c k) (call_k k))) ltac:(lia)). cbv zeta in IH. destruct IH as [I1 I2].
        split; [|rewrite I2; exact S2]. rewrite I1. f_equal. assert (P : plevel (fst (ckDecrypt pp (call_o k) pool (call_c k) (call_k k))) = Nat.min l (plevel pool)) by (unfold plevel at 1; lia).
        rewrite P. cbn. fold (lowest (plevel pool) ls). clear. induction ls as [|x ls IH]; cbn; [lia|]. fold (lowest (Nat.min l (plevel pool)) ls) (lowest (plevel pool) ls) in *. lia. }
    assert (LN : length (prows (newPool (N := N) pp)) = length (Qm pp)) by (cbn; apply tab_length).
    destruct (G (newPool pp)) as [G1 G2]; [rewrite LN; apply lenQ_pos|]. rewrite G1, G2. split; [|reflexivity]. do 2 f_equal. unfold plevel. rewrite LN. reflexivity.
  Qed.

  Lemma dec_ok (o : IdSetModel.order) pool (c : ct) s sks l fl : (l < length (Qm pp))%nat -> order_ok o -> wfct pp l fl c -> keys_ok pp (fun id => In id (parties c)) s sks ->
    incl (parties c) (keys sks) -> (0 < length (prows pool))%nat -> pntt pool = false ->
    exists p, snd (ckDecrypt pp o pool c sks) = Ok p /\ length (prows p) = S (Nat.min l (plevel pool)) /\ pntt p = false /\
      forall j, (j <= Nat.min l (plevel pool))%nat -> canon (Qi pp j) (row (prows p) j) /\ eqm (mq (Qi pp j)) (pvalue pp (Pol (prows p) fl) j) (phase pp s c j).
  Proof.
    intros HL O W KO IK LP FP. pose proof W as (W1 & W2 & W3). destruct (CopyNew_ok (o 3%nat) c (O 3%nat) W1 W2) as (c1 & C1 & C2 & C3).
    pose proof (wfct_ext pp l fl c c1 C2 C3 W) as Wc1. unfold ckDecrypt. rewrite C1, (wfct_level pp l fl c1 Wc1).
    pose proof (truncPool_len pool l LP) as TL. assert (TP : plevel (truncPool pool l) = Nat.min l (plevel pool)) by (unfold plevel at 1; rewrite TL; lia).
    assert (PE : forall x, In x (parties c1) <-> In x (parties c)).
    { intros x. rewrite !in_parties. assert (In x (keys c1) <-> In x (keys c)) by (rewrite <- !(mget_In_keys seq_dec), C3; tauto). tauto. }
    destruct (Decrypt_ok pp WF l fl o c1 s sks (truncPool pool l) HL O Wc1) as [D _].
    { destruct KO as [K1 K2]. split; [exact K1|]. intros id k Hk. destruct (K2 id k Hk) as [K3 K4]. split; [exact K3|]. intros I. apply K4, PE, I. }
    destruct D as (p & E1 & E2 & E3 & E4); [intros x Hx; apply IK, PE, Hx|]. rewrite E1. cbn [snd]. exists p. split; [reflexivity|]. rewrite TP in E2, E4.
    replace (Nat.min l (Nat.min l (plevel pool))) with (Nat.min l (plevel pool)) in E2, E4 by lia.
    split; [exact E2|]. split; [rewrite E3; exact FP|]. intros j Hj. destruct (E4 j Hj) as [F1 F2]. split; [exact F1|]. rewrite F2.
    rewrite (phase_ext pp s c1 c j C2 W1 C3). reflexivity.
  Qed.
End Dec.

(** The result is a prefix of the rows a fresh Decryptor gives: rows 0..l', l' the lowest level of the history and of the ciphertext. *)
Theorem C17_history : forall N pp (h : list (call N)) levels (o o' : IdSetModel.order) (c : ctT N) s sks l fl, wfp N pp -> calls_at pp h levels ->
  (l < length (Qm pp))%nat -> order_ok o -> order_ok o' -> wfct pp l fl c -> keys_ok pp (fun id => In id (parties c)) s sks -> incl (parties c) (keys sks) ->
  exists p pf, snd (ckDecrypt pp o (poolAfter pp h) c sks) = Ok p /\ snd (ckDecrypt pp o' (newPool pp) c sks) = Ok pf /\
    p = Pol (firstn (S (lowest l levels)) (prows pf)) false /\
    length (prows pf) = S l /\ pntt pf = false /\
    forall j, (j <= l)%nat -> canon (Qi pp j) (row (prows pf) j) /\ eqm (mq (Qi pp j)) (pvalue pp (Pol (prows pf) fl) j) (phase pp s c j).
Proof.
  intros N pp h levels o o' c s sks l fl WF H HL O O' W KO IK. destruct (history_len pp WF h levels H) as [L1 L2].
  destruct (dec_ok pp WF o (poolAfter pp h) c s sks l fl HL O W KO IK ltac:(lia) L2) as (p & P1 & P2 & P3 & P4).
  assert (LN : length (prows (newPool (N := N) pp)) = length (Qm pp)) by (cbn; apply tab_length).
  destruct (dec_ok pp WF o' (newPool pp) c s sks l fl HL O' W KO IK ltac:(lia) eq_refl) as (pf & F1 & F2 & F3 & F4).
  assert (LF : Nat.min l (plevel (newPool (N := N) pp)) = l) by (unfold plevel; lia). rewrite LF in *.
  assert (LP : Nat.min l (plevel (poolAfter pp h)) = lowest l levels).
  { unfold plevel. rewrite L1. replace (S (lowest (maxLevel pp) levels) - 1)%nat with (lowest (maxLevel pp) levels) by lia. rewrite lowest_min.
    pose proof (lowest_le l levels). unfold maxLevel. lia. }
  rewrite LP in *. exists p, pf. split; [exact P1|]. split; [exact F1|]. split; [|split; [exact F2|split; [exact F3|exact F4]]].
  destruct p as [rp fp]. cbn [prows pntt] in *. subst fp. f_equal. pose proof (lowest_le l levels) as LE.
  apply (nth_ext _ _ R0 R0); [rewrite P2, firstn_length; lia|]. intros j Hj. rewrite P2 in Hj. rewrite nth_firstn by assumption.
  destruct (P4 j ltac:(lia)) as [A1 A2]. destruct (F4 j ltac:(lia)) as [B1 B2].
  pose proof (okQ pp WF j ltac:(lia)) as [OM OQ]. apply (canon_eqm (Qi pp j)); [exact OQ|exact A1|exact B1|].
  unfold pvalue in A2, B2. cbn [pntt prows] in A2, B2. destruct fl; [|rewrite A2, B2; reflexivity].
  rewrite <- (ntt_intt (Qi pp j) OM (nth j rp R0)), <- (ntt_intt (Qi pp j) OM (nth j (prows pf) R0)). apply eqm_eq. apply (ntt_eqm (Qi pp j) OM). rewrite A2, B2. reflexivity.
Qed.
Print Assumptions C17_history.

Lemma lowest_ge l ls : (forall x, In x ls -> (l <= x)%nat) -> lowest l ls = l.
Proof. induction ls as [|x ls IH]; intros H; cbn; [reflexivity|]. fold (lowest l ls). rewrite IH by (intros y Hy; apply H; right; exact Hy). pose proof (H x (or_introl eq_refl)). lia. Qed.

(** If no earlier ciphertext had a lower level, the plaintext is the one a fresh Decryptor gives. *)
Theorem C17_same_as_fresh : forall N pp (h : list (call N)) levels (o o' : IdSetModel.order) (c : ctT N) s sks l fl, wfp N pp -> calls_at pp h levels ->
  (l < length (Qm pp))%nat -> order_ok o -> order_ok o' -> wfct pp l fl c -> keys_ok pp (fun id => In id (parties c)) s sks -> incl (parties c) (keys sks) ->
  (forall x, In x levels -> (l <= x)%nat) ->
  exists p, snd (ckDecrypt pp o (poolAfter pp h) c sks) = Ok p /\ snd (ckDecrypt pp o' (newPool pp) c sks) = Ok p.
Proof.
  intros N pp h levels o o' c s sks l fl WF H HL O O' W KO IK LE.
  destruct (C17_history N pp h levels o o' c s sks l fl WF H HL O O' W KO IK) as (p & pf & A & B & C & D & E & _).
  exists pf. split; [|exact B]. rewrite A, C, (lowest_ge l levels LE), <- D, firstn_all. destruct pf as [r f]. cbn [pntt prows] in *. subst f. reflexivity.
Qed.
Print Assumptions C17_same_as_fresh.

(** Decode has one result. *)
Theorem C17_decoded_unique : forall N pp (p : poly N) m m', wfp N pp -> (length (prows p) <= length (Qm pp))%nat -> decoded pp p m -> decoded pp p m' -> m = m'.
Proof.
  intros N pp p m m' WF HL [A1 A2] [B1 B2]. apply R_ext. intros i Hi. set (Q := firstn (length (prows p)) (Qs pp)) in *.
  assert (LQ : length (Qs pp) = length (Qm pp)) by (unfold Qs; apply map_length).
  assert (IQ : forall x, In x Q -> In x (Qs pp)) by (intros x Hx; rewrite <- (firstn_skipn (length (prows p)) (Qs pp)); apply in_or_app; left; exact Hx).
  destruct (wf_base _ _ WF) as [ND OK]. rewrite Forall_app in OK. destruct OK as [OK _]. rewrite Forall_forall in OK.
  assert (D : (prodl Q | co m i - co m' i)).
  { apply divide_prodl.
    - assert (NQ : NoDup (Qs pp)) by (clear - ND; induction (Qs pp) as [|x l IH]; [constructor|]; cbn in ND; inversion ND as [|? ? X Y]; subst; constructor; [intros I; apply X, in_or_app; left; exact I|apply IH, Y]).
      rewrite <- (firstn_skipn (length (prows p)) (Qs pp)) in NQ. fold Q in NQ. clear - NQ. induction Q as [|x l IH]; [constructor|]. cbn in NQ. inversion NQ as [|? ? X Y]; subst. constructor; [intros I; apply X, in_or_app; left; exact I|apply IH, Y].
    - intros x Hx. apply (OK x (IQ x Hx)).
    - intros x Hx. apply (In_nth _ _ 0) in Hx. destruct Hx as (j & Hj & <-). unfold Q in *. rewrite firstn_length in Hj. rewrite nth_firstn by lia.
      assert (EQ : nth j (Qs pp) 0 = mq (Qi pp j)) by (unfold Qs, Qi; change 0 with (mq dmod); apply map_nth). rewrite EQ.
      specialize (A1 j ltac:(lia)). specialize (B1 j ltac:(lia)). assert (E : eqm (mq (Qi pp j)) m m') by (rewrite A1, B1; reflexivity).
      apply (proj1 (eqm_co _ _ _)) with (i := i) in E; [exact E|exact Hi]. }
  destruct D as [k Hk]. specialize (A2 i Hi). specialize (B2 i Hi). assert (k = 0) by nia. lia.
Qed.
Print Assumptions C17_decoded_unique.

(** The decoded message survives any history as long as it is small against the moduli up to the lowest level seen. *)
Theorem C17_small_message : forall N pp (h : list (call N)) levels (o o' : IdSetModel.order) (c : ctT N) s sks l m, wfp N pp -> calls_at pp h levels ->
  (l < length (Qm pp))%nat -> order_ok o -> order_ok o' -> wfct pp l false c -> keys_ok pp (fun id => In id (parties c)) s sks -> incl (parties c) (keys sks) ->
  (forall j, (j <= l)%nat -> eqm (mq (Qi pp j)) (phase pp s c j) m) ->
  (forall i, (i < N)%nat -> 2 * Z.abs (co m i) < prodl (firstn (S (lowest l levels)) (Qs pp))) ->
  exists p pf, snd (ckDecrypt pp o (poolAfter pp h) c sks) = Ok p /\ snd (ckDecrypt pp o' (newPool pp) c sks) = Ok pf /\ decoded pp p m /\ decoded pp pf m.
Proof.
  intros N pp h levels o o' c s sks l m WF H HL O O' W KO IK HM HB.
  destruct (C17_history N pp h levels o o' c s sks l false WF H HL O O' W KO IK) as (p & pf & A & B & C & D & E & F).
  exists p, pf. split; [exact A|]. split; [exact B|]. pose proof (lowest_le l levels) as LE.
  assert (LP : length (prows p) = S (lowest l levels)) by (rewrite C; cbn [prows]; rewrite firstn_length; lia).
  assert (G : forall j, (j <= l)%nat -> eqm (mq (Qi pp j)) m (row (prows pf) j)).
  { intros j Hj. destruct (F j Hj) as [_ F2]. unfold pvalue in F2. cbn [pntt prows] in F2. rewrite F2. symmetry. apply HM, Hj. }
  split; split.
  - intros j Hj. rewrite LP in Hj. rewrite C. cbn [prows]. unfold row. rewrite nth_firstn by lia. apply G. lia.
  - rewrite LP. exact HB.
  - intros j Hj. apply G. lia.
  - intros i Hi. eapply Z.lt_le_trans; [apply HB, Hi|]. rewrite D.
    assert (X : exists t, firstn (S l) (Qs pp) = firstn (S (lowest l levels)) (Qs pp) ++ t).
    { exists (firstn (l - lowest l levels) (skipn (S (lowest l levels)) (Qs pp))). replace (S l) with (S (lowest l levels) + (l - lowest l levels))%nat by lia.
      rewrite <- (firstn_skipn (S (lowest l levels)) (Qs pp)) at 1. rewrite firstn_app. rewrite firstn_length.
      assert (LQ : length (Qs pp) = length (Qm pp)) by (unfold Qs; apply map_length).
      replace (S (lowest l levels) + (l - lowest l levels) - Nat.min (S (lowest l levels)) (length (Qs pp)))%nat with (l - lowest l levels)%nat by lia.
      f_equal. apply firstn_all2. rewrite firstn_length. lia. }
    destruct X as [t Ht]. rewrite Ht, prodl_app. destruct (wf_base _ _ WF) as [ND OK]. rewrite Forall_app in OK. destruct OK as [OK _]. rewrite Forall_forall in OK.
    assert (IN : forall x, In x (firstn (S l) (Qs pp)) -> 0 < x).
    { intros x Hx. assert (I : In x (Qs pp)) by (rewrite <- (firstn_skipn (S l) (Qs pp)); apply in_or_app; left; exact Hx). pose proof (prime_ge_2 x (proj1 (OK x I))). lia. }
    rewrite Ht in IN. assert (P1 : 0 < prodl (firstn (S (lowest l levels)) (Qs pp))) by (apply prodl_pos; intros x Hx; apply IN, in_or_app; left; exact Hx).
    assert (P2 : 0 < prodl t) by (apply prodl_pos; intros x Hx; apply IN, in_or_app; right; exact Hx). nia.
Qed.
Print Assumptions C17_small_message.

(** "The same message after every history" is false: one earlier Decrypt of a level-0 ciphertext (here even a call that panicked) changes it. *)
Definition ex_lo : call 8 := Call ex_ord (ex_ct 1 ["alice"]%string) nil.
Definition ex_m : R 8 := ex_poly [30; -41; 7; 0; 0; 12; 1; -5].
Definition ex_msg : R 8 := add ex_m (mul ex_m ex_s).
Definition ex_k : gomap string (secretKey 8) := map (fun id => (id, ex_sk id)) ["alice"%string].

Lemma ex_calls : calls_at ex_pp [ex_lo] [0%nat].
Proof. constructor; [|constructor]. split; [cbn; lia|]. split; [exact ex_ord_ok|]. exists false. apply (PropsCkksEx.ex_ct_wf 1); [lia|exact ex_nd1]. Qed.
Lemma ex_phase j : (j <= 2)%nat -> eqm (mq (Qi ex_pp j)) (phase ex_pp (fun _ => ex_s) (ex_ct 3 ["alice"]%string) j) ex_msg.
Proof.
  intros Hj. destruct (rows_of_sample ex_pp 8 41 ex_m ex_wf) as [S1 S2]; [apply bnd_poly; [lia|reflexivity]|].
  assert (E : eqm (mq (Qi ex_pp j)) (row (rows_of ex_pp ex_m) j) ex_m) by (apply S2; cbn; lia).
  assert (X : phase ex_pp (fun _ => ex_s) (ex_ct 3 ["alice"]%string) j = add (row (rows_of ex_pp ex_m) j) (mul (row (rows_of ex_pp ex_m) j) ex_s)).
  { unfold phase. change (parties (ex_ct 3 ["alice"]%string)) with ["alice"%string]. cbn [Lsum]. 
    change (pvalue ex_pp (comp (ex_ct 3 ["alice"]%string) "alice") j) with (row (rows_of ex_pp ex_m) j). change (pvalue ex_pp (comp (ex_ct 3 ["alice"]%string) id0) j) with (row (rows_of ex_pp ex_m) j).
    f_equal. apply add_0_r. }
  rewrite X. unfold ex_msg. rewrite E. reflexivity.
Qed.
Theorem C17_same_message_refuted : exists p pf, wfp 8 ex_pp /\ calls_at ex_pp [ex_lo] [0%nat] /\ wfct ex_pp 2 false (ex_ct 3 ["alice"]%string) /\
  keys_ok ex_pp (fun id => In id (parties (ex_ct 3 ["alice"]%string))) (fun _ => ex_s) ex_k /\ incl (parties (ex_ct 3 ["alice"]%string)) (keys ex_k) /\
  snd (ckDecrypt ex_pp ex_ord (newPool ex_pp) (call_c ex_lo) (call_k ex_lo)) = Panic /\
  snd (ckDecrypt ex_pp ex_ord (poolAfter ex_pp [ex_lo]) (ex_ct 3 ["alice"]%string) ex_k) = Ok p /\
  snd (ckDecrypt ex_pp ex_ord (newPool ex_pp) (ex_ct 3 ["alice"]%string) ex_k) = Ok pf /\
  decoded ex_pp pf ex_msg /\ ~ decoded ex_pp p ex_msg.
Proof.
  assert (W : wfct ex_pp 2 false (ex_ct 3 ["alice"]%string)) by (apply (PropsCkksEx.ex_ct_wf 3); [lia|exact ex_nd1]).
  destruct (PropsBfv.ex_keys ["alice"%string]) as [KO KE]; [repeat constructor; cbn; tauto|]. fold ex_k in KO, KE.
  assert (KO' : keys_ok ex_pp (fun id => In id (parties (ex_ct 3 ["alice"]%string))) (fun _ => ex_s) ex_k) by (destruct KO as [A B]; split; [exact A|intros id k Hk; destruct (B id k Hk) as [B1 B2]; split; [exact B1|intros _; apply B2; exact I]]).
  assert (IK : incl (parties (ex_ct 3 ["alice"]%string)) (keys ex_k)) by (rewrite KE; intros x Hx; exact Hx).
  destruct (C17_history 8 ex_pp [ex_lo] [0%nat] ex_ord ex_ord (ex_ct 3 ["alice"]%string) (fun _ => ex_s) ex_k 2 false ex_wf ex_calls ltac:(cbn; lia) ex_ord_ok ex_ord_ok W KO' IK) as (p & pf & A & B & C & D & E & F).
  exists p, pf. split; [exact ex_wf|]. split; [exact ex_calls|]. split; [exact W|]. split; [exact KO'|]. split; [exact IK|].
  assert (BM : forall i, (i < 8)%nat -> 2 * Z.abs (co ex_msg i) < 97 * (193 * 257)).
  { intros i Hi. do 8 (destruct i as [|i]; [vm_compute; reflexivity|]). lia. }
  split; [|split; [exact A|]; split; [exact B|]; split].
  - cbn [call_c call_k ex_lo]. vm_compute. reflexivity.
  - split.
    + intros j Hj. rewrite D in Hj. destruct (F j ltac:(lia)) as [_ F2]. unfold pvalue in F2. cbn [pntt prows] in F2. rewrite F2. symmetry. apply ex_phase. lia.
    + rewrite D. exact BM.
  - intros [_ X]. rewrite C in X. cbn [prows] in X. rewrite firstn_length, D in X. change (Nat.min (S (lowest 2 [0%nat])) 3) with 1%nat in X.
    assert (Y : exists i, (i < 8)%nat /\ ~ 2 * Z.abs (co ex_msg i) < 97).
    { exists 1%nat. split; [lia|]. vm_compute. discriminate. }
    destruct Y as (i & Hi & Y). apply Y. apply (X i Hi).
Qed.
Print Assumptions C17_same_message_refuted.

(** the hypotheses of C17_small_message are met by a level-0 history and a small message *)
Example C17_nonvacuous : calls_at ex_pp [ex_lo] [0%nat] /\ lowest 2 [0%nat] = 0%nat /\
  exists m : R 8, (forall j, (j <= 2)%nat -> eqm (mq (Qi ex_pp j)) (phase ex_pp (fun _ => ex_s) (ex_ct 3 []) j) m) /\
    forall i, (i < 8)%nat -> 2 * Z.abs (co m i) < prodl (firstn (S (lowest 2 [0%nat])) (Qs ex_pp)).
Proof.
  split; [exact ex_calls|]. split; [reflexivity|]. exists ex_m. split.
  - intros j Hj. destruct (rows_of_sample ex_pp 8 41 ex_m ex_wf) as [S1 S2]; [apply bnd_poly; [lia|reflexivity]|].
    assert (X : phase ex_pp (fun _ => ex_s) (ex_ct 3 []) j = row (rows_of ex_pp ex_m) j).
    { unfold phase. change (parties (ex_ct 3 [])) with (@nil string). cbn [Lsum]. change (pvalue ex_pp (comp (ex_ct 3 []) id0) j) with (row (rows_of ex_pp ex_m) j). apply add_0_r. }
    rewrite X. apply S2. cbn. lia.
  - intros i Hi. do 8 (destruct i as [|i]; [vm_compute; reflexivity|]). lia.
Qed.
