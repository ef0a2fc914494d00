(** No scratch buffer of a BFV Evaluator, its KeySwitcher or a BFV RelinearizationKeySet influences a result. *)
From Flocq Require Import Core BinarySingleNaN.
From Coq Require Import Znumtheory.
From Verif Require Import Base IdSetModel IdSetSpec IdSetProofs KeySetModel NumTheory Negacyclic Ntt Word FloatModel CkksFloat BasisExt BasisExtProofs DecompProofs Rows RlweModel KeyGenModel SchemeSpec ExtProd Galois KeyGenProofs CtModel CtSpec CtProofs EncDecProofs KeySwitchModel Digits KsLoops RotProofs CkksModel CkksProofs BfvModel BfvMulModel BfvConv BfvGadget BfvDig BfvMulProofs KsPool KsPoolProofs EvalPool EvalPoolProofs BfvPool.
Open Scope Z_scope.

Lemma updPre_gen {N} n (F : nat -> res (polyQP N)) (G : nat -> polyQP N -> res (polyQP N)) (s : swk N) (Sh : polyQP N -> Prop) (Rl : polyQP N -> polyQP N -> Prop) :
  (n <= length s)%nat -> (forall d, In d s -> Sh d) ->
  (forall i o, (i < n)%nat -> idx s i = Ok o -> Sh o -> rsim (fun a b => Rl a b /\ Sh b) (F i) (G i o)) ->
  rsim (fun new s' => length new = n /\ length s' = length s /\ (forall d, In d s' -> Sh d) /\ forall i, (i < n)%nat -> rsim Rl (idx new i) (idx s' i)) (rmapM F (seq 0 n)) (updPre n G s).
Proof.
  intros LS SS H. unfold updPre.
  assert (K : rsim (Forall2 (fun a b => Rl a b /\ Sh b)) (rmapM F (seq 0 n)) (rmapM (fun i => o <- idx s i ;; G i o) (seq 0 n))).
  { apply rsim_mapM. intros i Hi. apply in_seq in Hi. destruct (idx_in s i ltac:(lia)) as (d & E & I). rewrite E. cbn [rbind]. apply H; [lia|exact E|apply SS; exact I]. }
  destruct (rmapM F (seq 0 n)) as [new|] eqn:EF, (rmapM (fun i => o <- idx s i ;; G i o) (seq 0 n)) as [new'|] eqn:EG; cbn [rsim rbind] in K |- *; trivial; try contradiction.
  apply (rmapM_len) in EF. rewrite seq_length in EF. pose proof (Forall2_len _ _ _ K) as FL. split; [exact EF|]. split; [rewrite app_length, skipn_length; lia|]. split.
  - intros d Hd. apply in_app_or in Hd as [Hd|Hd]; [|apply SS; apply (In_skipn _ _ _ Hd)].
    clear - K Hd. induction K as [|a b l l' [_ X] _ IH]; [destruct Hd|]. destruct Hd as [<-|Hd]; [exact X|apply IH; exact Hd].
  - intros i Hi. rewrite idx_app1 by lia. rewrite (idx_nth new i (QP nil nil)) by lia. rewrite (idx_nth new' i (QP nil nil)) by lia. cbn [rsim].
    apply (Forall2_nth _ _ _ i (QP nil nil) (QP nil nil) K). lia.
Qed.
Lemma wr_all {N} level (e old : list (R N)) : length old = S level -> length e = S level -> wr level e old = e.
Proof.
  intros LO LE. apply (nth_ext _ _ R0 R0); [unfold wr; rewrite tab_length; lia|]. intros j Hj. unfold wr in *. rewrite tab_length in Hj. rewrite nth_tab by exact Hj. destruct (Nat.leb_spec j level); [reflexivity|lia].
Qed.
Lemma colmap_len {N} n (F : nat -> res (list Z)) (e : list (R N)) : colmap n F = Ok e -> length e = n.
Proof. unfold colmap. destruct (rmapM _ _); cbn [rbind]; [|discriminate]. intros E. injection E as <-. apply tab_length. Qed.
(** multiplying anything by the scalar 0 gives 0 *)
Lemma mred_0 x q qi : 0 < q < Word.W -> mred x 0 q qi = 0.
Proof.
  intros H. unfold mred, mul_hi, mul_lo. rewrite Z.mul_0_r, Z.mod_0_l, Z.div_0_l by (unfold Word.W; lia). change (w64 (0 * qi)) with 0. rewrite ?Z.mul_0_l, ?Z.div_0_l by (unfold Word.W; lia).
  replace (0 - 0 + q) with q by lia. unfold w64. rewrite Z.mod_small by lia. unfold cred. rewrite Z.leb_refl. lia.
Qed.

Section Sim.
  Context {N : nat} (b : bparams) (WB : wfb N b) (HD : (length (bQ b) mod alpha (ppQ b) = 0)%nat).
  Notation R := (R N). Notation ct := (ctT N). Notation kst := (kst N). Notation bst := (bst N).
  Notation n := (length (bQ b)).
  Notation pp := (ppQ b).
  Let WF : wfp N pp := wf_ppQ b WB.

  Definition cvsh (c : cvt N) : Prop := length (vQ c) = n /\ length (vM c) = n /\ length (vR c) = (n + n)%nat.
  Definition shRP (l : swk N) : Prop := length l = beta (ppR b) (maxLevel (ppR b)) /\ forall d, In d l -> shQP (ppR b) d.
  Definition bsh (s : bst) : Prop :=
    sh pp (bK s) /\ cvsh (bCv s) /\ cvsh (bEv s) /\ shRP (bRP s) /\ shS pp (bw1 s) /\ shS pp (bw2 s) /\ shS pp (bw3 s) /\ shS pp (bw4 s) /\ shS pp (bw5 s) /\ shS pp (bw6 s) /\
    shq pp (bq1 s) /\ shq pp (bq2 s) /\ length (br1 s) = (n + n)%nat /\ length (br2 s) = (n + n)%nat /\ length (br3 s) = (n + n)%nat /\ length (br4 s) = (n + n)%nat.

  Lemma np : (0 < n)%nat. Proof. pose proof (wb_32 _ _ WB). lia. Qed.
  Lemma lr : levelR b = (n + n - 1)%nat. Proof. apply (LR_eq b WB). Qed.
  Lemma wrn (e old : list R) : length old = n -> length e = n -> wr (n - 1) e old = e.
  Proof. intros. pose proof np. apply wr_all; lia. Qed.
  Lemma wrR (e old : list R) : length old = (n + n)%nat -> length e = (n + n)%nat -> wr (levelR b) e old = e.
  Proof. intros. pose proof np. rewrite lr. apply wr_all; lia. Qed.

  (** *** base conversions *)
  Definition cpost (r : list R) (x : cvt N * list R) : Prop := r = snd x /\ length r = (n + n)%nat /\ cvsh (fst x).
  Lemma ModUpSt_sim c pQ old : cvsh c -> length old = (n + n)%nat -> rsim cpost (ModUpQtoR b pQ) (ModUpQtoRSt b c pQ old).
  Proof.
    intros (C1 & C2 & C3) LO. unfold ModUpQtoR, ModUpQtoRSt. cbv zeta. destruct (Nat.ltb_spec (length pQ) n) as [|LP]; [exact I|].
    destruct (colmap _ _) as [pm|] eqn:E; cbn [rbind rsim]; [|exact I]. pose proof (colmap_len _ _ _ E) as LM. cbn [vM]. rewrite (wrn pm (vM c)) by assumption.
    rewrite (firstn_all2 pm) by lia. assert (LL : length (firstn n pQ ++ pm) = (n + n)%nat) by (rewrite app_length, firstn_length; lia).
    rewrite wrR by assumption. split; [reflexivity|]. split; [exact LL|]. cbn [fst]. repeat split; cbn; assumption.
  Qed.
  Lemma scal0 (a : R) j : (j < n)%nat -> r_scal (Mi b j) 0 a = mkR (fun _ => 0).
  Proof.
    intros Hj. destruct (okM b WB j Hj) as [_ K]. pose proof (okq_lt _ K) as QL. pose proof (proj2 K) as QB.
    destruct (mform_mont (0 mod mq (Mi b j)) (mq (Mi b j)) K) as [C1 C2]; [rewrite Z.mod_0_l by lia; lia|].
    assert (E : mform (0 mod mq (Mi b j)) (mq (Mi b j)) (bred_params (mq (Mi b j))) = 0).
    { rewrite (Z.mod_0_l (mq (Mi b j))) in C1, C2 |- * by lia. apply eqz_iff in C2; [|lia]. rewrite Z.mul_0_l, (Z.mod_0_l (mq (Mi b j))), Z.mod_small in C2 by lia. exact C2. }
    apply R_ext. intros i Hi. unfold r_scal. rewrite E. rewrite !co_mkR by assumption. apply mred_0. unfold Word.W. lia.
  Qed.
  Lemma col_zero (l : list R) x : (x < N)%nat -> length l = n -> (forall j, (j < n)%nat -> row l j = mkR (fun _ => 0)) -> col l x = repeat 0 n.
  Proof.
    intros Hx L H. apply (nth_ext _ _ 0 0); [rewrite col_length, repeat_length; exact L|]. intros j Hj. rewrite col_length in Hj. rewrite col_nth by exact Hj. rewrite H by lia. rewrite co_mkR by exact Hx. symmetry. apply nth_repeat.
  Qed.
  Lemma RescaleSt_sim c pQ old : cvsh c -> length old = (n + n)%nat -> rsim cpost (Rescale b pQ) (RescaleSt b c pQ old).
  Proof.
    intros (C1 & C2 & C3) LO. unfold Rescale, RescaleSt. cbv zeta. destruct (Nat.ltb_spec (length pQ) n) as [|LP]; [exact I|]. cbn [vQ vM vR].
    set (q0 := tab n (fun j => r_mont (Qi pp j) (row pQ j) (mFormM b (Qi pp j)))). assert (LQ : length q0 = n) by apply tab_length. rewrite (wrn q0 (vQ c)) by assumption.
    set (z := tab n (fun j => r_scal (Mi b j) 0 (row (vM c) j))). assert (LZ : length z = n) by apply tab_length. rewrite (wrn z (vM c)) by assumption.
    rewrite (colmap_ext n (fun x => ModDownQPtoP (Qs pp) (Ms b) (n - 1) (n - 1) (col q0 x) (repeat 0 n)) (fun x => ModDownQPtoP (Qs pp) (Ms b) (n - 1) (n - 1) (col q0 x) (col z x))).
    2:{ intros x Hx. rewrite (col_zero z x Hx LZ); [reflexivity|]. intros j Hj. unfold z, row at 1. rewrite nth_tab by exact Hj. apply scal0. exact Hj. }
    destruct (colmap n (fun x => ModDownQPtoP _ _ _ _ _ _)) as [pm|] eqn:E; cbn [rbind]; [|exact I]. pose proof (colmap_len _ _ _ E) as LM. rewrite (wrn pm z) by assumption.
    destruct (colmap n (fun x => ModUp _ _ _ _ _)) as [pq|] eqn:E2; cbn [rbind rsim]; [|exact I]. pose proof (colmap_len _ _ _ E2) as LPQ. rewrite (wrn pq q0) by assumption.
    rewrite (firstn_all2 pm), (firstn_all2 pq) by lia. assert (LL : length (pq ++ pm) = (n + n)%nat) by (rewrite app_length; lia). rewrite wrR by assumption.
    split; [reflexivity|]. split; [exact LL|]. cbn [fst]. repeat split; cbn; assumption.
  Qed.
  Lemma QuantizeSt_sim c pR : cvsh c -> rsim (fun r x => r = snd x /\ cvsh (fst x)) (Quantize b pR) (QuantizeSt b c pR).
  Proof.
    intros (C1 & C2 & C3). unfold Quantize, QuantizeSt. cbv zeta. cbn [vQ vM vR].
    set (t := tab (n + n) (fun j => r_scal (Qi (ppR b) j) (bT b) (row pR j))). assert (LT : length t = (n + n)%nat) by apply tab_length. rewrite (wrR t (vR c)) by assumption.
    replace (tab (n + n) (fun j => intt (Qi (ppR b) j) (row t j))) with (tab (n + n) (fun j => intt (Qi (ppR b) j) (r_scal (Qi (ppR b) j) (bT b) (row pR j)))).
    2:{ apply tab_ext. intros j Hj. unfold t, row at 2. rewrite nth_tab by exact Hj. reflexivity. }
    set (pr := tab (n + n) (fun j => intt (Qi (ppR b) j) (r_scal (Qi (ppR b) j) (bT b) (row pR j)))). assert (LR : length pr = (n + n)%nat) by apply tab_length. rewrite (wrR pr t) by assumption.
    rewrite (wrn (firstn n pr) (vQ c)), (wrn (skipn n pr) (vM c)) by (trivial; rewrite ?firstn_length, ?skipn_length; lia).
    destruct (colmap _ _) as [e|]; cbn [rsim rbind]; [|exact I]. split; [reflexivity|]. cbn [fst]. repeat split; cbn; rewrite ?firstn_length, ?skipn_length; lia.
  Qed.
  Lemma quSt_sim s pR : bsh s -> rsim (fun r x => r = snd x /\ exists c, fst x = stCv s c /\ cvsh c) (Quantize b pR) (quSt b s pR).
  Proof.
    intros SH. assert (C : cvsh (bCv s)) by (unfold bsh in SH; tauto). unfold quSt. pose proof (QuantizeSt_sim (bCv s) pR C) as H.
    destruct (Quantize b pR) as [r|], (QuantizeSt b (bCv s) pR) as [[c e]|]; cbn [rsim rbind] in H |- *; trivial. cbn [fst snd] in *. destruct H as [H1 H2]. split; [exact H1|]. exists c. split; [reflexivity|exact H2].
  Qed.

  (** *** decomposition *)
  Lemma beta2 level : (level < n)%nat -> (2 * beta pp level <= beta (ppR b) (maxLevel (ppR b)))%nat.
  Proof.
    intros HL. pose proof (beta_max pp WF level HL) as BM. pose proof (beta_n b WB HD) as BN. pose proof (al_pos b WB) as AP.
    assert (X : (alpha (ppR b) * (beta (ppR b) (maxLevel (ppR b)) - 1) < n + n <= alpha (ppR b) * beta (ppR b) (maxLevel (ppR b)))%nat).
    { pose proof (wb_len _ _ WB) as LE. pose proof (wb_32 _ _ WB) as B32. destruct (beta_exact (maxLevel (ppR b)) (alpha (ppR b))) as [_ S];
        [rewrite al_R; lia|unfold maxLevel; cbn [ppR Qm]; rewrite app_length; lia|rewrite al_R; lia|].
      unfold beta. unfold maxLevel in S |- *. cbn [ppR Qm] in S |- *. rewrite app_length in S |- *. lia. }
    rewrite al_R in X. unfold bbeta in BN. set (A := alpha pp) in *. set (BR := beta (ppR b) (maxLevel (ppR b))) in *. set (BQ := beta pp (maxLevel pp)) in *. nia.
  Qed.
  Lemma nQ_n : length (Qm pp) = n. Proof. reflexivity. Qed.
  Lemma rmapM_idx {A} (l : list A) : rmapM (fun i => idx l i) (seq 0 (length l)) = Ok l.
  Proof.
    pose proof (KsPoolProofs.rmapM_map (fun x : A => x) l) as H. rewrite map_id in H. etransitivity; [|exact H]. generalize (seq 0 (length l)). induction l0 as [|x l0 IH]; cbn [rmapM]; [reflexivity|]. rewrite IH. destruct (idx l x); reflexivity.
  Qed.
  Lemma idx_firstn {A} (l : list A) m i : (i < m)%nat -> idx (firstn m l) i = idx l i.
  Proof. revert l i. induction m as [|m IH]; intros l i H; [lia|]. destruct l as [|x l]; [reflexivity|]. destruct i; [reflexivity|]. cbn. apply (IH l i). lia. Qed.
  Lemma idx_skipn {A} (l : list A) m i : idx (skipn m l) i = idx l (i + m).
  Proof. revert l. induction m as [|m IH]; intros l; [rewrite Nat.add_0_r; reflexivity|]. destruct l as [|x l]; [destruct i; reflexivity|]. cbn [skipn]. rewrite IH. rewrite Nat.add_succ_r. reflexivity. Qed.
  Lemma copy_sim level (ds : swk N) (rp d : swk N) k : (level < n)%nat -> shS pp d -> length ds = beta pp level -> (forall i, (i < beta pp level)%nat -> rsim (eqQP pp level) (idx ds i) (idx rp (i + k))) ->
    rsim (fun new s' => shS pp s' /\ drel pp level new s') (Ok ds) (updPre (beta pp level) (fun i o => r <- idx rp (i + k) ;; Ok (wrQP pp level r o)) d).
  Proof.
    intros HL SD LD H. pose proof (updPre_sim pp WF level (fun i => idx ds i) (fun i o => r <- idx rp (i + k) ;; Ok (wrQP pp level r o)) d HL SD) as U.
    match type of U with ?X -> _ => assert (K : X) end.
    { intros i o Hi _ So. specialize (H i Hi). destruct (idx ds i) as [x|], (idx rp (i + k)) as [y|]; cbn [rsim rbind] in H |- *; trivial. destruct (wrQP_eq pp level y o HL So) as [W1 W2]. split; [|exact W2]. apply (eqQP_trans pp _ _ _ _ H W1). }
    specialize (U K). assert (EE : rmapM (fun i => idx ds i) (seq 0 (beta pp level)) = Ok ds) by (rewrite <- LD; apply rmapM_idx). rewrite EE in U. destruct (updPre _ _ d) as [s'|]; cbn [rsim] in U |- *; [tauto|contradiction].
  Qed.
  Definition dpost (level : nat) (s : bst) (d : swk N * swk N) (r : bst * swk N * swk N) : Prop :=
    (exists rp, shRP rp /\ fst (fst r) = stRP s rp) /\ shS pp (snd (fst r)) /\ shS pp (snd r) /\ drel pp level (fst d) (snd (fst r)) /\ drel pp level (snd d) (snd r).
  Lemma DecBSt_sim level s aR d1 d2 : (level < n)%nat -> bsh s -> shS pp d1 -> shS pp d2 -> rsim (dpost level s) (DecomposeBFV b level aR) (DecBSt b level s aR d1 d2).
  Proof.
    intros HL SH S1 S2. assert (RP : shRP (bRP s)) by (unfold bsh in SH; tauto). unfold DecomposeBFV, DecBSt. cbv zeta. destruct RP as [LR SR]. pose proof (beta2 level HL) as B2.
    eapply rsim_bind.
    { apply (updPre_gen (2 * beta pp level) (fun i => DecomposeSingleNTT (ppR b) level i aR) (fun i o => DsnInto (ppR b) level i aR o) (bRP s) (shQP (ppR b)) (eqQP pp level)); [lia|exact SR|].
      intros i o Hi _ So. unfold DsnInto. destruct (DecomposeSingleNTT (ppR b) level i aR) as [d|]; cbn [rsim rbind]; [|exact I].
      apply (wrQP_eq (ppR b) level d o); [cbn [ppR Qm]; rewrite app_length; lia|exact So]. }
    intros ds rp (L1 & L2 & L3 & L4).
    pose proof (copy_sim level (firstn (beta pp level) ds) rp d1 0 HL S1) as C1. pose proof (copy_sim level (skipn (beta pp level) ds) rp d2 (beta pp level) HL S2) as C2.
    match type of C1 with ?X -> ?Y -> _ => assert (K1 : X) by (rewrite firstn_length; lia); assert (K2 : Y) end.
    { intros i Hi. rewrite idx_firstn by exact Hi. rewrite Nat.add_0_r. apply L4. lia. }
    specialize (C1 K1 K2). clear K1 K2.
    match type of C2 with ?X -> ?Y -> _ => assert (K1 : X) by (rewrite skipn_length; lia); assert (K2 : Y) end.
    { intros i Hi. rewrite idx_skipn. apply L4. lia. }
    specialize (C2 K1 K2). clear K1 K2.
    replace (updPre (beta pp level) (fun i o => r <- idx rp i ;; Ok (wrQP pp level r o)) d1) with (updPre (beta pp level) (fun i o => r <- idx rp (i + 0) ;; Ok (wrQP pp level r o)) d1).
    2:{ unfold updPre. f_equal. generalize (seq 0 (beta pp level)). clear. induction l as [|x l IH]; [reflexivity|]. cbn [rmapM]. rewrite IH, Nat.add_0_r. reflexivity. }
    destruct (updPre (beta pp level) (fun i o => r <- idx rp (i + 0) ;; Ok (wrQP pp level r o)) d1) as [x|]; cbn [rsim] in C1; [|contradiction]. cbn [rbind].
    destruct (updPre (beta pp level) (fun i o => r <- idx rp (i + beta pp level) ;; Ok (wrQP pp level r o)) d2) as [y|]; cbn [rsim] in C2; [|contradiction]. cbn [rbind rsim].
    unfold dpost. cbn [fst snd]. split; [|tauto]. exists rp. split; [split; [lia|exact L3]|reflexivity].
  Qed.

  (** *** external products *)
  Definition epost (level : nat) (s : bst) (e : list R) (r : bst * list R) : Prop := e = snd r /\ length e = S level /\ exists K, sh pp K /\ fst r = stK s K.
  Lemma ExtBHSt_sim level s a1 a1' a2 a2' k1 k1' k2 k2' : (level < n)%nat -> bsh s -> drel pp level a1 a1' -> drel pp level a2 a2' -> drel pp level k1 k1' -> drel pp level k2 k2' ->
    rsim (epost level s) (ExternalProductBFVHoisted b level a1 a2 k1 k2) (ExtBHSt b level s a1' a2' k1' k2').
  Proof.
    intros HL SH A1 A2 B1 B2. assert (SK : sh pp (bK s)) by (unfold bsh in SH; tauto). unfold ExternalProductBFVHoisted, ExtBHSt, macBFV.
    assert (G : forall m i acc st, (i + m <= beta pp level)%nat -> sh pp st -> ((0 < i)%nat -> eqQP pp level acc (kP1 st)) ->
      rsim (fun c st' => ((0 < i + m)%nat -> eqQP pp level c (kP1 st')) /\ sh pp st')
        (rfold (fun acc i => k1 <- idx k1 i ;; d1 <- idx a1 i ;; k2 <- idx k2 i ;; d2 <- idx a2 i ;;
           let acc := if (i =? 0)%nat then lvl2 pp level r_mont k1 d1 else lvl3 pp level r_mont_add k1 d1 acc in
           Ok (lvl3 pp level r_mont_add k2 d2 acc)) (seq i m) acc)
        (rfold (fun st i => k1 <- idx k1' i ;; d1 <- idx a1' i ;; k2 <- idx k2' i ;; d2 <- idx a2' i ;; Ok (macAcc b level k2 d2 (macSt pp level i k1 d1 st))) (seq i m) st)).
    { induction m as [|m IH]; intros i acc st Hm Ss A; cbn [seq rfold].
      - cbn [rsim]. rewrite Nat.add_0_r. tauto.
      - specialize (A1 i ltac:(lia)) as A1i. specialize (A2 i ltac:(lia)) as A2i. specialize (B1 i ltac:(lia)) as B1i. specialize (B2 i ltac:(lia)) as B2i.
        destruct (idx k1 i) as [x|], (idx k1' i) as [x'|]; cbn [rsim rbind] in B1i |- *; trivial; try contradiction.
        destruct (idx a1 i) as [y|], (idx a1' i) as [y'|]; cbn [rsim rbind] in A1i |- *; trivial; try contradiction.
        destruct (idx k2 i) as [z|], (idx k2' i) as [z'|]; cbn [rsim rbind] in B2i |- *; trivial; try contradiction.
        destruct (idx a2 i) as [w|], (idx a2' i) as [w'|]; cbn [rsim rbind] in A2i |- *; trivial; try contradiction. cbv zeta.
        assert (SP : shQP pp (kP1 st)) by (unfold sh in Ss; tauto).
        destruct (mac_sim pp level i x x' y y' acc st HL B1i A1i SP A) as (p1 & E1 & E2 & E3). rewrite E1. set (st1 := setE st (kP0 st) p1 (kInv st)).
        set (acc1 := if (i =? 0)%nat then lvl2 pp level r_mont x y else lvl3 pp level r_mont_add x y acc) in *.
        assert (S1 : sh pp st1) by (apply sh_setE; trivial; unfold sh in Ss; tauto).
        unfold macAcc. change (kP1 st1) with p1. destruct (wrQP_eq pp level (lvl3 pp level r_mont_add z' w' p1) p1 HL E2) as [W1 W2].
        set (p2 := wrQP pp level (lvl3 pp level r_mont_add z' w' p1) p1) in *. set (st2 := setE st1 (kP0 st1) p2 (kInv st1)).
        assert (S2 : sh pp st2) by (apply sh_setE; trivial; unfold sh in S1; tauto).
        eapply rsim_weak; [|apply (IH (S i) (lvl3 pp level r_mont_add z w acc1) st2 ltac:(lia) S2)].
        + intros c st' [X Y]. split; [intros _; apply X; lia|exact Y].
        + intros _. change (kP1 st2) with p2. rewrite (lvl3_ext pp level r_mont_add z z' w w' acc1 p1 B2i A2i E3). exact W1. }
    eapply rsim_bind; [apply (G (beta pp level) 0%nat (QP nil nil) (bK s) ltac:(lia) SK ltac:(lia))|].
    intros c st [X Ss]. pose proof (beta_pos pp WF level HL). assert (SP : shQP pp (kP1 st)) by (unfold sh in Ss; tauto).
    pose proof (fin_ok pp level st c HL SP (X ltac:(lia))) as F. destruct (rescaleP pp level c) as [e|], (finSt pp level st) as [[st' e']|]; cbn [rsim rbind] in F |- *; trivial.
    destruct F as (-> & L & p1 & P1 & ->). unfold epost. cbn [fst snd]. split; [reflexivity|]. split; [exact L|]. eexists. split; [|reflexivity]. apply sh_setE; trivial; unfold sh in Ss; tauto.
  Qed.

  (** *** reading digits *)
  Definition d2rel (level : nat) (d d' : swk N * swk N) : Prop := drel pp level (fst d) (fst d') /\ drel pp level (snd d) (snd d').
  Definition bhrel (level : nat) (l : list string) (h h' : option (bhoisted N)) : Prop :=
    match h, h' with
    | None, None => True
    | Some m, Some m' => forall id, In id l -> rsim (d2rel level) (bhget m id) (bhget m' id)
    | _, _ => False
    end.
  Lemma bdigSt_sim level s l h h' (op : ct) id : (level < n)%nat -> bsh s -> bhrel level l h h' -> In id l ->
    rsim (fun d r => (exists rp w1 w2, fst (fst r) = stW12 (stRP s rp) w1 w2) /\ bsh (fst (fst r)) /\ d2rel level d (snd (fst r), snd r)) (bhdig b level h op id) (bdigSt b level s h' op id).
  Proof.
    intros HL SH HR HI. unfold bhdig, bdigSt, bhrel in *. destruct h as [m|], h' as [m'|]; try contradiction.
    - specialize (HR id HI). destruct (bhget m id) as [[d1 d2]|], (bhget m' id) as [[d1' d2']|]; cbn [rsim rbind fst snd] in HR |- *; trivial. split; [|split; [exact SH|exact HR]]. exists (bRP s), (bw1 s), (bw2 s). destruct s; reflexivity.
    - apply rsim_eq. intros p _. pose proof SH as (A1 & A2 & A3 & A4 & A5 & A6 & A7).
      pose proof (DecBSt_sim level s (prows p) (bw1 s) (bw2 s) HL SH A5 A6) as D. destruct (DecomposeBFV b level (prows p)) as [[d1 d2]|], (DecBSt b level s (prows p) (bw1 s) (bw2 s)) as [[[s' d1'] d2']|]; cbn [rsim rbind] in D |- *; trivial.
      destruct D as ((rp & RP & E) & S1 & S2 & D1 & D2). cbn [fst snd] in *. subst s'. split; [exists rp, d1', d2'; reflexivity|]. split; [|split; assumption]. unfold bsh. cbn. tauto.
  Qed.
  Definition bepost (level : nat) (s : bst) (e : list R) (r : bst * list R) : Prop :=
    e = snd r /\ length e = S level /\ bsh (fst r) /\ exists K rp w1 w2, fst r = stK (stW12 (stRP s rp) w1 w2) K.
  Lemma bExtOpSt_sim level s l h h' (op : ct) id k1 k1' k2 k2' : (level < n)%nat -> bsh s -> bhrel level l h h' -> In id l -> drel pp level k1 k1' -> drel pp level k2 k2' ->
    rsim (bepost level s) (bExtOp b level h op id k1 k2) (bExtOpSt b level s h' op id k1' k2').
  Proof.
    intros HL SH HR HI D1 D2. unfold bExtOp, bExtOpSt. eapply rsim_bind; [apply (bdigSt_sim level s l h h' op id HL SH HR HI)|].
    intros [a1 a2] [[s' a1'] a2'] ((rp & w1 & w2 & E) & S1 & DA1 & DA2). cbn [fst snd] in *.
    eapply rsim_weak; [|apply (ExtBHSt_sim level s' a1 a1' a2 a2' k1 k1' k2 k2' HL S1 DA1 DA2 D1 D2)].
    intros e [s2 e'] (E1 & L & K & SK & E2). cbn [fst snd] in *. unfold bepost. cbn [fst snd]. split; [exact E1|]. split; [exact L|]. subst s2 s'. split; [|exists K, rp, w1, w2; reflexivity].
    unfold bsh in S1 |- *. cbn in S1 |- *. tauto.
  Qed.

  (** *** the vectors x and y *)
  Lemma mac_into level (key ds ds' acc x : swk N) : (level < n)%nat -> shS pp x -> drel pp level ds ds' -> drel pp level acc x ->
    rsim (fun new x' => length new = beta pp level /\ shS pp x' /\ drel pp level new x') (macAdd pp level key ds acc)
      (updPre (beta pp level) (fun i o => kk <- idx key i ;; d <- idx ds' i ;; Ok (wrQP pp level (lvl3 pp level r_mont_add kk d o) o)) x).
  Proof.
    intros HL SX DD DA. unfold macAdd. apply (updPre_sim pp WF level _ _ x HL SX).
    intros i o Hi EO So. specialize (DA i Hi). rewrite EO in DA. specialize (DD i Hi).
    destruct (idx key i) as [kk|]; cbn [rbind]; [|exact I].
    destruct (idx ds i) as [y|], (idx ds' i) as [y'|]; cbn [rsim rbind] in DD |- *; trivial; try contradiction.
    destruct (idx acc i) as [z|]; cbn [rsim rbind] in DA |- *; [|contradiction].
    destruct (wrQP_eq pp level (lvl3 pp level r_mont_add kk y' o) o HL So) as [W1 W2]. split; [|exact W2].
    rewrite (lvl3_ext pp level r_mont_add kk kk y y' z o (eqQP_refl _ _ _) DD DA). exact W1.
  Qed.
  Lemma mf_into level (acc x : swk N) : (level < n)%nat -> shS pp x -> length acc = beta pp level -> drel pp level acc x ->
    exists x', updPre (beta pp level) (fun _ o => Ok (wrQP pp level (lvl1 pp level r_mform o) o)) x = Ok x' /\ shS pp x' /\ drel pp level (map (lvl1 pp level r_mform) acc) x'.
  Proof.
    intros HL SX LA DA. pose proof (updPre_sim pp WF level (fun i => o <- idx acc i ;; Ok (lvl1 pp level r_mform o)) (fun _ o => Ok (wrQP pp level (lvl1 pp level r_mform o) o)) x HL SX) as U.
    match type of U with ?X -> _ => assert (K : X) end.
    { intros i o Hi EO So. specialize (DA i Hi). rewrite EO in DA. destruct (idx acc i) as [z|]; cbn [rsim rbind] in DA |- *; [|contradiction].
      destruct (wrQP_eq pp level (lvl1 pp level r_mform o) o HL So) as [W1 W2]. split; [|exact W2]. rewrite (lvl1_ext pp level r_mform z o DA). exact W1. }
    specialize (U K). replace (rmapM (fun i : nat => o <- idx acc i ;; Ok (lvl1 pp level r_mform o)) (seq 0 (beta pp level))) with (Ok (map (lvl1 pp level r_mform) acc)) in U by (rewrite <- LA; symmetry; apply KsPoolProofs.rmapM_map).
    destruct (updPre _ _ x) as [x'|]; cbn [rsim] in U; [|contradiction]. exists x'. tauto.
  Qed.
  Lemma bvecSt_sim level (g1 g2 o1 o2 : bst -> swk N) (set : bst -> swk N -> swk N -> bst) s1 s2 h h' (op : ct) rs l s : (level < n)%nat -> bsh s ->
    (forall s x y, g1 (set s x y) = x /\ g2 (set s x y) = y /\ o1 (set s x y) = o1 s /\ o2 (set s x y) = o2 s) -> (forall s x y, bsh s -> shS pp x -> shS pp y -> bsh (set s x y)) -> (forall s, bsh s -> shS pp (g1 s) /\ shS pp (g2 s)) ->
    (forall s rp w1 w2, g1 (stW12 (stRP s rp) w1 w2) = g1 s /\ g2 (stW12 (stRP s rp) w1 w2) = g2 s /\ o1 (stW12 (stRP s rp) w1 w2) = o1 s /\ o2 (stW12 (stRP s rp) w1 w2) = o2 s) ->
    bhrel level l h h' -> drel pp level (tab (beta pp level) (fun _ => zeroQP pp level)) (g1 s) -> drel pp level (tab (beta pp level) (fun _ => zeroQP pp level)) (g2 s) ->
    rsim (fun x s' => bsh s' /\ o1 s' = o1 s /\ o2 s' = o2 s /\ drel pp level (fst x) (g1 s') /\ drel pp level (snd x) (g2 s'))
      (bGenVec b level s1 s2 h op rs l) (bvecSt b level g1 g2 set s1 s2 h' op rs l s).
  Proof.
    intros HL SH GS SS SG GE HR D1 D2. unfold bGenVec, bvecSt. cbv zeta.
    set (P := fun (x : swk N * swk N) s' => bsh s' /\ o1 s' = o1 s /\ o2 s' = o2 s /\ length (fst x) = beta pp level /\ length (snd x) = beta pp level /\ drel pp level (fst x) (g1 s') /\ drel pp level (snd x) (g2 s')).
    eapply (rsim_bind P).
    - apply rsim_fold; [|unfold P; cbn [fst snd]; rewrite !tab_length; tauto]. intros [a1 a2] t id Hid (St & O1 & O2 & L1 & L2 & R1 & R2). cbn [fst snd] in *.
      eapply rsim_bind; [apply (bdigSt_sim level t l h h' op id HL St HR Hid)|]. intros [d1 d2] [[t' d1'] d2'] ((rp & w1 & w2 & E) & St' & DA1 & DA2). cbn [fst snd] in *.
      destruct (GE t rp w1 w2) as (G1 & G2 & G3 & G4). rewrite <- E in G1, G2, G3, G4. destruct (SG t' St') as [SG1 SG2].
      apply rsim_eq. intros k _. eapply rsim_bind; [apply (mac_into level (s1 k) d1 d1' a1 (g1 t') HL SG1 DA1); rewrite G1; exact R1|]. intros x1 x1' (X1 & X2 & X3).
      eapply rsim_bind; [apply (mac_into level (s2 k) d2 d2' a2 (g2 t') HL SG2 DA2); rewrite G2; exact R2|]. intros x2 x2' (Y1 & Y2 & Y3). cbn [rsim]. unfold P. cbn [fst snd].
      destruct (GS t' x1' x2') as (-> & -> & -> & ->). rewrite G3, G4. split; [apply SS; assumption|]. tauto.
    - intros [a1 a2] t (St & O1 & O2 & L1 & L2 & R1 & R2). cbn [fst snd] in *. destruct (SG t St) as [SG1 SG2].
      destruct (mf_into level a1 (g1 t) HL SG1 L1 R1) as (x1 & -> & X2 & X3). destruct (mf_into level a2 (g2 t) HL SG2 L2 R2) as (x2 & -> & Y2 & Y3). cbn [rbind rsim fst snd].
      destruct (GS t x1 x2) as (-> & -> & -> & ->). split; [apply SS; assumption|]. tauto.
  Qed.

  (** *** the stages of a multiplication *)
  Definition bkeep (s0 s : bst) : Prop := bsh s /\ bw3 s = bw3 s0 /\ bw4 s = bw4 s0 /\ bw5 s = bw5 s0 /\ bw6 s = bw6 s0.
  Definition bpst (s0 : bst) (c : ct) (r : bst * ct) : Prop := c = snd r /\ bkeep s0 (fst r).
  Lemma lenR1 f (a : list R) : length (lvlQ1 (ppR b) (levelR b) f a) = (n + n)%nat. Proof. pose proof np. unfold lvlQ1. rewrite tab_length, lr. lia. Qed.
  Lemma lenR2 f (a c : list R) : length (lvlQ2 (ppR b) (levelR b) f a c) = (n + n)%nat. Proof. pose proof np. unfold lvlQ2. rewrite tab_length, lr. lia. Qed.
  Lemma lenR3 f (a c d : list R) : length (lvlQ3 (ppR b) (levelR b) f a c d) = (n + n)%nat. Proof. pose proof np. unfold lvlQ3. rewrite tab_length, lr. lia. Qed.
  Lemma keepR s0 s x1 x2 x3 x4 : bkeep s0 s -> length x1 = (n + n)%nat -> length x2 = (n + n)%nat -> length x3 = (n + n)%nat -> length x4 = (n + n)%nat -> bkeep s0 (stR4 (stR3 (stR2 (stR1 s x1) x2) x3) x4).
  Proof. unfold bkeep, bsh. cbn. tauto. Qed.
  Lemma keepCv s0 s c : bkeep s0 s -> cvsh c -> bkeep s0 (stCv s c). Proof. unfold bkeep, bsh. cbn. tauto. Qed.
  (** one product: computed in polyRPool3 (polyRPool4), then quantized *)
  Definition rinv (s0 : bst) (aN bM : list R) (s : bst) : Prop := bkeep s0 s /\ br1 s = aN /\ br2 s = bM.
  Lemma quant_sim s0 aN bM s x3 x4 (c : ct) id : rinv s0 aN bM s -> length x3 = (n + n)%nat -> length x4 = (n + n)%nat ->
    rsim (fun c r => c = snd r /\ rinv s0 aN bM (fst r)) (z <- Quantize b x3 ;; cwr c id z) ('(s, z) <- quSt b (stR4 (stR3 s x3) x4) x3 ;; c <- cwr c id z ;; Ok (s, c)).
  Proof.
    intros (K & E1 & E2) L3 L4. assert (L1 : length (br1 s) = (n + n)%nat /\ length (br2 s) = (n + n)%nat) by (unfold bkeep, bsh in K; tauto).
    assert (K2 : bkeep s0 (stR4 (stR3 s x3) x4)) by (pose proof (keepR s0 s (br1 s) (br2 s) x3 x4 K (proj1 L1) (proj2 L1) L3 L4) as X; destruct s; exact X).
    eapply rsim_bind; [apply (quSt_sim _ x3 (proj1 K2))|]. intros z [s' z'] (E & cv & Es & CV). cbn [fst snd] in *. subst z' s'.
    destruct (cwr c id z) as [c'|]; cbn [rsim rbind]; [|exact I]. cbn [fst snd]. split; [reflexivity|]. split; [apply keepCv; assumption|]. split; assumption.
  Qed.
  Lemma stR4_id (s : bst) : stR4 s (br4 s) = s. Proof. destruct s; reflexivity. Qed.
  Lemma rinv_len s0 aN bM s : rinv s0 aN bM s -> length (br1 s) = (n + n)%nat /\ length (br2 s) = (n + n)%nat /\ length (br3 s) = (n + n)%nat /\ length (br4 s) = (n + n)%nat.
  Proof. intros (K & _). unfold bkeep, bsh in K. tauto. Qed.
  Lemma bprodSt_sim (o : order) (op0 op1 : ct) ids0 ids1 s out : bsh s ->
    rsim (bpst s) (bProdStage b o op0 op1 ids0 ids1 out) (bprodSt b o op0 op1 ids0 ids1 s out).
  Proof.
    intros SH. unfold bProdStage, bprodSt. cbv zeta. assert (K0 : bkeep s s) by (unfold bkeep; tauto). assert (LL : length (br1 s) = (n + n)%nat /\ length (br2 s) = (n + n)%nat /\ length (br3 s) = (n + n)%nat /\ length (br4 s) = (n + n)%nat) by (unfold bsh in SH; tauto).
    destruct LL as (L1 & L2 & L3 & L4).
    apply rsim_eq. intros a0 _. apply rsim_eq. intros b0 _. set (A := lvlQ1 (ppR b) (levelR b) ntt (prows a0)). set (B := lvlQ1 (ppR b) (levelR b) ntt (prows b0)).
    assert (LA : length A = (n + n)%nat) by apply lenR1. assert (LB : length B = (n + n)%nat) by apply lenR1.
    rewrite (wrR A (br1 s)) by assumption. cbn [stR1 stR2 stR3 br1 br2 br3]. rewrite (wrR B (br2 s)) by assumption.
    set (aN := lvlQ1 (ppR b) (levelR b) r_mform A). assert (LN : length aN = (n + n)%nat) by apply lenR1. rewrite (wrR aN A) by assumption.
    set (p := lvlQ2 (ppR b) (levelR b) r_mont aN B). assert (LP : length p = (n + n)%nat) by apply lenR2. rewrite (wrR p (br3 s)) by assumption.
    match goal with |- rsim _ _ (rbind (quSt b ?S _) _) => set (s1 := S) end.
    assert (K1 : bkeep s s1) by (pose proof (keepR s s aN B p (br4 s) K0 LN LB LP L4) as X; destruct s; exact X).
    eapply rsim_bind; [apply (quSt_sim s1 p (proj1 K1))|]. intros z [s2 z'] (E & cv & Es & CV). cbn [fst snd] in E, Es. subst z'. cbv beta iota.
    assert (K2 : bkeep s s2) by (subst s2; apply keepCv; assumption). assert (E1 : br1 s2 = aN) by (subst s2; reflexivity). assert (E2 : br2 s2 = B) by (subst s2; reflexivity).
    clear Es. clearbody s1. clear K1 s1.
    apply rsim_eq. intros out1 _. rewrite E2. set (bM := lvlQ1 (ppR b) (levelR b) r_mform B). assert (LM : length bM = (n + n)%nat) by apply lenR1. rewrite (wrR bM B) by assumption.
    assert (K3 : rinv s aN bM (stR2 s2 bM)).
    { split; [|split; [exact E1|reflexivity]]. assert (X : length (br1 s2) = (n + n)%nat /\ length (br3 s2) = (n + n)%nat /\ length (br4 s2) = (n + n)%nat) by (unfold bkeep, bsh in K2; tauto). destruct X as (X1 & X3 & X4).
      pose proof (keepR s s2 (br1 s2) bM (br3 s2) (br4 s2) K2 X1 LM X3 X4) as X. destruct s2; exact X. }
    set (J := fun (c : ct) (r : bst * ct) => c = snd r /\ rinv s aN bM (fst r)).
    eapply (rsim_bind J).
    { apply rsim_fold; [|unfold J; cbn [fst snd]; tauto]. intros c [t c'] id _ [EC RI]. cbn [fst snd] in EC, RI. subst c'. destruct (is_has ids1 id); [cbn [rsim]; unfold J; cbn [fst snd]; tauto|].
      apply rsim_eq. intros q _. cbv zeta. cbn [stR3 br2 br3]. destruct (rinv_len _ _ _ _ RI) as (T1 & T2 & T3 & T4). pose proof RI as (_ & F1 & F2). rewrite F2.
      rewrite (wrR (lvlQ1 (ppR b) (levelR b) ntt (prows q)) (br3 t)) by (trivial; apply lenR1). rewrite wrR by (first [apply lenR1|apply lenR2]).
      pose proof (quant_sim s aN bM t (lvlQ2 (ppR b) (levelR b) r_mont bM (lvlQ1 (ppR b) (levelR b) ntt (prows q))) (br4 t) c id RI (lenR2 _ _ _) T4) as X. destruct t; cbn in F2; subst; exact X. }
    intros c [t c'] [EC RI]. cbn [fst snd] in EC, RI. subst c'. cbv beta iota.
    eapply (rsim_bind J).
    { apply rsim_fold; [|unfold J; cbn [fst snd]; tauto]. clear t RI c. intros c [t c'] id _ [EC RI]. cbn [fst snd] in EC, RI. subst c'. destruct (is_has ids0 id); [cbn [rsim]; unfold J; cbn [fst snd]; tauto|].
      apply rsim_eq. intros q _. cbv zeta. cbn [stR3 br1 br3]. destruct (rinv_len _ _ _ _ RI) as (T1 & T2 & T3 & T4). pose proof RI as (_ & F1 & F2). rewrite F1.
      rewrite (wrR (lvlQ1 (ppR b) (levelR b) ntt (prows q)) (br3 t)) by (trivial; apply lenR1). rewrite wrR by (first [apply lenR1|apply lenR2]).
      pose proof (quant_sim s aN bM t (lvlQ2 (ppR b) (levelR b) r_mont aN (lvlQ1 (ppR b) (levelR b) ntt (prows q))) (br4 t) c id RI (lenR2 _ _ _) T4) as X. destruct t; cbn in F1; subst; exact X. }
    clear t RI c. intros c [t c'] [EC RI]. cbn [fst snd] in EC, RI. subst c'. cbv beta iota.
    eapply (rsim_weak J); [intros x r [X1 X2]; split; [exact X1|apply X2]|].
    apply rsim_fold; [|unfold J; cbn [fst snd]; tauto]. clear t RI c. intros c [t c'] id _ [EC RI]. cbn [fst snd] in EC, RI. subst c'. destruct (is_has ids0 id); [|cbn [rsim]; unfold J; cbn [fst snd]; tauto].
    apply rsim_eq. intros q _. apply rsim_eq. intros q' _. cbv zeta. cbn [stR3 stR4 br1 br2 br3 br4]. destruct (rinv_len _ _ _ _ RI) as (T1 & T2 & T3 & T4). pose proof RI as (_ & F1 & F2). rewrite F1, F2.
    rewrite (wrR (lvlQ1 (ppR b) (levelR b) ntt (prows q)) (br3 t)) by (trivial; apply lenR1). rewrite (wrR (lvlQ2 (ppR b) (levelR b) r_mont aN (lvlQ1 (ppR b) (levelR b) ntt (prows q)))) by (first [apply lenR1|apply lenR2]).
    rewrite (wrR (lvlQ1 (ppR b) (levelR b) ntt (prows q')) (br4 t)) by (trivial; apply lenR1). rewrite wrR by (first [apply lenR2|apply lenR3]).
    pose proof (quant_sim s aN bM t (lvlQ3 (ppR b) (levelR b) r_mont_add bM (lvlQ1 (ppR b) (levelR b) ntt (prows q')) (lvlQ2 (ppR b) (levelR b) r_mont aN (lvlQ1 (ppR b) (levelR b) ntt (prows q)))) (lvlQ1 (ppR b) (levelR b) ntt (prows q')) c id RI (lenR3 _ _ _ _) (lenR1 _ _)) as X.
    destruct t; cbn in F1, F2; subst; exact X.
  Qed.

  Lemma bsh_q1 s q : bsh s -> shq pp q -> bsh (stQ1 s q). Proof. unfold bsh. cbn. tauto. Qed.
  Lemma bsh_q2 s q : bsh s -> shq pp q -> bsh (stQ2 s q). Proof. unfold bsh. cbn. tauto. Qed.
  Lemma bsh_K s k : bsh s -> sh pp k -> bsh (stK s k). Proof. unfold bsh. cbn. tauto. Qed.
  Lemma bsh_Ev s k : bsh s -> cvsh k -> bsh (stEv s k). Proof. unfold bsh. cbn. tauto. Qed.
  Lemma bsh_W34 s x y : bsh s -> shS pp x -> shS pp y -> bsh (stW34 s x y). Proof. unfold bsh. cbn. tauto. Qed.
  Lemma bsh_W56 s x y : bsh s -> shS pp x -> shS pp y -> bsh (stW56 s x y). Proof. unfold bsh. cbn. tauto. Qed.
  Lemma bsh_qs s : bsh s -> shq pp (bq1 s) /\ shq pp (bq2 s) /\ sh pp (bK s) /\ shS pp (bw3 s) /\ shS pp (bw4 s) /\ shS pp (bw5 s) /\ shS pp (bw6 s). Proof. unfold bsh. tauto. Qed.
  Lemma bxSt_sim level (o : order) l h1 h1' (op1 : ct) ids1 x1 x2 s0 s out : (level < n)%nat -> bkeep s0 s -> bhrel level l h1 h1' -> (forall id, In id (o 7%nat (keys ids1)) -> In id l) -> drel pp level x1 (bw3 s0) -> drel pp level x2 (bw4 s0) ->
    rsim (bpst s0) (bxStage b level o h1 op1 ids1 x1 x2 out) (bxSt b level o h1' op1 ids1 s out).
  Proof.
    intros HL K HR HI DX1 DX2. unfold bxStage, bxSt. apply rsim_fold; [|split; [reflexivity|exact K]]. clear s K. intros c [s c'] id Hid [EC K]. cbn [fst snd] in EC, K. subst c'.
    pose proof K as (SH & K3 & K4 & K5 & K6). rewrite <- K3 in DX1. rewrite <- K4 in DX2.
    eapply rsim_bind; [apply (bExtOpSt_sim level s l h1 h1' op1 id x1 (bw3 s) x2 (bw4 s) HL SH HR (HI _ Hid) DX1 DX2)|].
    intros e [t e'] (E & L & St & k & rp & w1 & w2 & Et). cbn [fst snd] in E, St, Et. subst e'. cbv zeta beta iota.
    destruct (bsh_qs _ St) as (Q1 & _). apply rsim_eq. intros q _.
    rewrite (lvlQ2_ext pp level r_add (prows q) (prows q) e (prows (bq1 (stQ1 t (wrP level e (bq1 t)))))); [|apply eqQ_refl|apply (wrP_eq pp level e (bq1 t) HL Q1)].
    destruct (cwr c id _) as [c'|]; cbn [rsim rbind]; trivial. split; [reflexivity|]. cbn [fst]. split; [apply bsh_q1; [exact St|apply shq_wrP; exact Q1]|]. subst t. cbn. tauto.
  Qed.
  Definition k56 (s0 s : bst) : Prop := bsh s /\ bw5 s = bw5 s0 /\ bw6 s = bw6 s0.
  Definition bpst2 (s0 : bst) (c : ct) (r : bst * ct) : Prop := c = snd r /\ k56 s0 (fst r).
  (** an external product of the embedded KeySwitcher into polyQPool2 *)
  Definition evpost (level : nat) (s0 s : bst) (e : list R) (s' : bst) : Prop :=
    k56 s0 s' /\ eqQ level e (prows (bq2 s')) /\ bq1 s' = bq1 s /\ bw3 s' = bw3 s.
  Lemma bExtSt_sim level s0 s a bg : (level < n)%nat -> k56 s0 s -> prel level a (bq1 s) -> rsim (evpost level s0 s) (ExternalProduct pp level a bg) (bExtSt b level s bg).
  Proof.
    intros HL (SH & K5 & K6) PR. destruct (bsh_qs _ SH) as (Q1 & Q2 & SK & _). unfold bExtSt. pose proof (ExtSt_sim pp WF level (bK s) a (bq1 s) bg bg HL SK PR (drel_refl _ _ _)) as X.
    destruct (ExternalProduct pp level a bg) as [e|], (ExtSt pp level (bK s) (bq1 s) bg) as [[st e']|]; cbn [rsim rbind] in X |- *; trivial.
    pose proof (extPost_sh pp _ _ _ _ SK X) as S1. destruct X as (E & L & _). cbn [fst snd] in E, S1. subst e'. cbv zeta. split; [split; [|cbn; tauto]|].
    - apply bsh_q2; [apply bsh_K; assumption|apply shq_wrP; exact Q2].
    - split; [apply (wrP_eq pp level e (bq2 s) HL Q2)|cbn; tauto].
  Qed.
  Lemma bExtHSt_sim level s0 s dw bg : (level < n)%nat -> k56 s0 s -> drel pp level dw (bw3 s) -> rsim (evpost level s0 s) (ExternalProductHoisted pp level dw bg) (bExtHSt b level s bg).
  Proof.
    intros HL (SH & K5 & K6) DR. destruct (bsh_qs _ SH) as (Q1 & Q2 & SK & _). unfold bExtHSt. pose proof (ExtHSt_sim pp WF level (bK s) dw (bw3 s) bg bg HL SK DR (drel_refl _ _ _)) as X.
    destruct (ExternalProductHoisted pp level dw bg) as [e|], (ExtHSt pp level (bK s) (bw3 s) bg) as [[st e']|]; cbn [rsim rbind] in X |- *; trivial.
    pose proof (extPost_sh pp _ _ _ _ SK X) as S1. destruct X as (E & L & _). cbn [fst snd] in E, S1. subst e'. cbv zeta. split; [split; [|cbn; tauto]|].
    - apply bsh_q2; [apply bsh_K; assumption|apply shq_wrP; exact Q2].
    - split; [apply (wrP_eq pp level e (bq2 s) HL Q2)|cbn; tauto].
  Qed.
  Lemma bvSt_sim (hc : bool) level (o : order) l crs rs h0 h0' (op0 : ct) ids0 y1 y2 s0 s out : (level < n)%nat -> k56 s0 s -> bhrel level l h0 h0' -> (hc = false -> h0 = None) -> (forall id, In id (o 8%nat (keys ids0)) -> In id l) ->
    drel pp level y1 (bw5 s0) -> drel pp level y2 (bw6 s0) ->
    rsim (bpst2 s0) (if hc then bvStageH b level o crs rs h0 op0 ids0 y1 y2 out else bvStage b level o crs rs op0 ids0 y1 y2 out) (bvSt hc b level o crs rs h0' op0 ids0 s out).
  Proof.
    intros HL K HR HC HI DY1 DY2.
    assert (W : forall c id s, k56 s0 s -> In id l -> rsim (fun (w : list R) (r : bst * list R) => w = snd r /\ length w = S level /\ k56 s0 (fst r) /\ prel level (Pol w false) (bq1 (stQ1 (fst r) (wrP level w (bq1 (fst r))))) /\ k56 s0 (stQ1 (fst r) (wrP level w (bq1 (fst r)))))
      (bExtOp b level (if hc then h0 else None) op0 id y1 y2) (bExtOpSt b level s h0' op0 id (bw5 s) (bw6 s)) /\ c = c :> ct).
    { intros c id t (SH & K5 & K6) Hid. split; [|reflexivity]. assert (EH : (if hc then h0 else None) = h0) by (destruct hc; [reflexivity|symmetry; apply HC; reflexivity]). rewrite EH.
      rewrite K5, K6. eapply rsim_weak; [|apply (bExtOpSt_sim level t l h0 h0' op0 id y1 (bw5 s0) y2 (bw6 s0) HL SH HR Hid DY1 DY2)].
      intros w [t' w'] (E & L & St & k & rp & w1 & w2 & Et). cbn [fst snd] in *. destruct (bsh_qs _ St) as (Q1 & _). split; [exact E|]. split; [exact L|].
      assert (KT : k56 s0 t') by (split; [exact St|]; subst t'; cbn; tauto). split; [exact KT|]. split; [apply (wrP_prel pp level w (bq1 t') HL Q1 L)|].
      destruct KT as (_ & K7 & K8). split; [apply bsh_q1; [exact St|apply shq_wrP; exact Q1]|cbn; tauto]. }
    unfold bvSt. destruct hc.
    - unfold bvStageH. apply rsim_eq. intros u _. apply rsim_fold; [|split; [reflexivity|exact K]]. clear s K. intros c [s c'] id Hid [EC K]. cbn [fst snd] in EC, K. subst c'.
      apply rsim_eq. intros k _. eapply rsim_bind; [exact (proj1 (W c id s K (HI _ Hid)))|]. intros w [t w'] (E & L & KT & PW & K1). cbn [fst snd] in E, KT, PW, K1. subst w'. cbv zeta beta iota.
      set (t1 := stQ1 t (wrP level w (bq1 t))) in *. destruct (bsh_qs _ (proj1 K1)) as (_ & _ & SK & S3 & S4 & _).
      pose proof (DecSt_sim pp WF level (bK t1) (Pol w false) (bq1 t1) (bw3 t1) HL SK S3 PW) as D.
      destruct (Decompose pp level (Pol w false)) as [dw|], (DecSt pp level (bK t1) (bq1 t1) (bw3 t1)) as [[st dw']|]; cbn [rsim rbind] in D |- *; trivial; try contradiction. destruct D as ((r & Lr & Es) & _ & SD & DD).
      set (t2 := stW34 (stK t1 st) dw' (bw4 (stK t1 st))). assert (SK' : sh pp st) by (subst st; apply setE_sh; assumption).
      assert (K2 : k56 s0 t2) by (destruct K1 as (X & Y & Z); split; [apply bsh_W34; [apply bsh_K; assumption|exact SD|exact S4]|cbn; tauto]).
      eapply rsim_bind; [apply (bExtHSt_sim level s0 t2 dw (br_v k) HL K2 DD)|]. intros ev t3 (K3 & EV & _ & E3).
      apply rsim_eq. intros q0 _. rewrite (lvlQ2_ext pp level r_add (prows q0) (prows q0) ev _ (eqQ_refl _ _) EV). apply rsim_eq. intros c1 _.
      assert (D3 : drel pp level dw (bw3 t3)) by (rewrite E3; exact DD).
      eapply rsim_bind; [apply (bExtHSt_sim level s0 t3 dw u HL K3 D3)|]. intros eu t4 (K4 & EU & _ & _).
      apply rsim_eq. intros q _. rewrite (lvlQ2_ext pp level r_add (prows q) (prows q) eu _ (eqQ_refl _ _) EU). destruct (cwr c1 id _) as [c2|]; cbn [rsim rbind]; trivial. split; [reflexivity|exact K4].
    - unfold bvStage. apply rsim_eq. intros u _. apply rsim_fold; [|split; [reflexivity|exact K]]. clear s K. intros c [s c'] id Hid [EC K]. cbn [fst snd] in EC, K. subst c'.
      apply rsim_eq. intros k _. eapply rsim_bind; [exact (proj1 (W c id s K (HI _ Hid)))|]. intros w [t w'] (E & L & KT & PW & K1). cbn [fst snd] in E, KT, PW, K1. subst w'. cbv zeta beta iota. cbn [rbind].
      set (t1 := stQ1 t (wrP level w (bq1 t))) in *.
      eapply rsim_bind; [apply (bExtSt_sim level s0 t1 (Pol w false) (br_v k) HL K1 PW)|]. intros ev t3 (K3 & EV & E3 & _).
      apply rsim_eq. intros q0 _. rewrite (lvlQ2_ext pp level r_add (prows q0) (prows q0) ev _ (eqQ_refl _ _) EV). apply rsim_eq. intros c1 _.
      assert (P3 : prel level (Pol w false) (bq1 t3)) by (rewrite E3; exact PW).
      eapply rsim_bind; [apply (bExtSt_sim level s0 t3 (Pol w false) u HL K3 P3)|]. intros eu t4 (K4 & EU & _ & _).
      apply rsim_eq. intros q _. rewrite (lvlQ2_ext pp level r_add (prows q) (prows q) eu _ (eqQ_refl _ _) EU). destruct (cwr c1 id _) as [c2|]; cbn [rsim rbind]; trivial. split; [reflexivity|exact K4].
  Qed.

  (** *** a multiplication with relinearization *)
  Definition bsame (c : ct) (r : bst * ct) : Prop := c = snd r /\ bsh (fst r).
  Lemma bMulSt_sim (hc : bool) (o : order) crs s (op0 op1 : ct) h0 h0' h1 h1' rs out : order_ok o -> bsh s -> (forall l, ctLevel out = Ok l -> (l < n)%nat) ->
    (forall l, ctLevel out = Ok l -> bhrel l (parties op0) h0 h0' /\ bhrel l (parties op1) h1 h1') -> (hc = false -> h0 = None /\ h1 = None) ->
    rsim bsame (if hc then MulAndRelinBFVHoisted b o crs op0 op1 h0 h1 rs out else MulAndRelinBFV b o crs op0 op1 rs out) (bMulSt hc b o crs s op0 op1 h0' h1' rs out).
  Proof.
    intros O SH FT HR HC.
    replace (if hc then MulAndRelinBFVHoisted b o crs op0 op1 h0 h1 rs out else MulAndRelinBFV b o crs op0 op1 rs out) with
      (level <- ctLevel out ;; l0 <- ctLevel op0 ;; if (l0 <? level)%nat then Panic else ids0 <- IDSetOf (o 0%nat) op0 ;; ids1 <- IDSetOf (o 1%nat) op1 ;;
       '(x1, x2) <- bGenVec b level br_d1 br_d2 h0 op0 rs (o 2%nat (keys ids0)) ;; '(y1, y2) <- bGenVec b level br_b1 br_b2 h1 op1 rs (o 3%nat (keys ids1)) ;;
       out <- bProdStage b o op0 op1 ids0 ids1 out ;; out <- bxStage b level o h1 op1 ids1 x1 x2 out ;;
       if hc then bvStageH b level o crs rs h0 op0 ids0 y1 y2 out else bvStage b level o crs rs op0 ids0 y1 y2 out) by (destruct hc; [reflexivity|destruct (HC eq_refl) as [-> ->]; reflexivity]).
    unfold bMulSt. apply rsim_eq. intros level EL. pose proof (FT level EL) as HL. destruct (HR level EL) as [HR0 HR1]. apply rsim_eq. intros l0 _. destruct (l0 <? level)%nat; [exact I|].
    apply rsim_eq. intros ids0 E0. apply rsim_eq. intros ids1 E1. pose proof (ids_of_parties o _ _ _ O E0) as P0. pose proof (ids_of_parties o _ _ _ O E1) as P1.
    assert (I0 : forall m id, In id (o m (keys ids0)) -> In id (parties op0)) by (intros m id H; apply P0; apply (Permutation_in _ (O m _)); exact H).
    assert (I1 : forall m id, In id (o m (keys ids1)) -> In id (parties op1)) by (intros m id H; apply P1; apply (Permutation_in _ (O m _)); exact H).
    assert (SUB : forall l l' h h', (forall x, In x l' -> In x l) -> bhrel level l h h' -> bhrel level l' h h') by (intros l l' [h|] [h'|]; unfold bhrel; auto).
    destruct (bsh_qs _ SH) as (_ & _ & _ & S3 & S4 & S5 & S6).
    destruct (zeroSt_ok pp WF level (bw3 s) HL S3) as (x1 & -> & X1 & Z1). destruct (zeroSt_ok pp WF level (bw4 s) HL S4) as (x2 & -> & X2 & Z2).
    destruct (zeroSt_ok pp WF level (bw5 s) HL S5) as (y1 & -> & Y1 & Z3). destruct (zeroSt_ok pp WF level (bw6 s) HL S6) as (y2 & -> & Y2 & Z4). cbn [rbind]. cbv zeta.
    set (s1 := stW56 (stW34 s x1 x2) y1 y2). assert (SH1 : bsh s1) by (apply bsh_W56; [apply bsh_W34; assumption| |]; assumption).
    eapply rsim_bind.
    { apply (bvecSt_sim level bw3 bw4 bw5 bw6 stW34 br_d1 br_d2 h0 h0' op0 rs (o 2%nat (keys ids0)) s1 HL SH1); trivial.
      - intros; cbn; tauto.
      - intros t x y; apply bsh_W34.
      - intros t Ht; destruct (bsh_qs _ Ht) as (_ & _ & _ & T3 & T4 & _); split; assumption.
      - intros; cbn; tauto.
      - apply (SUB (parties op0)); [apply I0|exact HR0]. }
    intros [a1 a2] s2 (SH2 & O1 & O2 & A1 & A2). cbn [fst snd] in A1, A2.
    eapply rsim_bind.
    { apply (bvecSt_sim level bw5 bw6 bw3 bw4 stW56 br_b1 br_b2 h1 h1' op1 rs (o 3%nat (keys ids1)) s2 HL SH2); trivial.
      - intros; cbn; tauto.
      - intros t x y; apply bsh_W56.
      - intros t Ht; destruct (bsh_qs _ Ht) as (_ & _ & _ & _ & _ & T3 & T4); split; assumption.
      - intros; cbn; tauto.
      - apply (SUB (parties op1)); [apply I1|exact HR1].
      - rewrite O1. exact Z3.
      - rewrite O2. exact Z4. }
    intros [c1 c2] s3 (SH3 & O3 & O4 & C1 & C2). cbn [fst snd] in C1, C2. rewrite <- O3 in A1. rewrite <- O4 in A2.
    eapply rsim_bind; [apply (bprodSt_sim o op0 op1 ids0 ids1 s3 out SH3)|]. intros out1 [s4 out1'] [E K]. cbn [fst snd] in E, K. subst out1'. cbv beta iota.
    eapply rsim_bind; [apply (bxSt_sim level o (parties op1) h1 h1' op1 ids1 a1 a2 s3 s4 out1 HL K HR1 (I1 7%nat) A1 A2)|]. intros out2 [s5 out2'] [E K5]. cbn [fst snd] in E, K5. subst out2'. cbv beta iota.
    assert (K6 : k56 s3 s5) by (unfold bkeep in K5; unfold k56; tauto).
    eapply rsim_weak; [|apply (bvSt_sim hc level o (parties op0) crs rs h0 h0' op0 ids0 c1 c2 s3 s5 out2 HL K6 HR0 (fun X => proj1 (HC X)) (I0 8%nat) C1 C2)].
    intros x r [X1' (X2' & _)]. split; assumption.
  Qed.

  (** *** lifting and hoisting *)
  Definition pshape (p : gomap string (list R)) : Prop := forall id x, mget seq_dec p id = Some x -> length x = (n + n)%nat.
  Definition pkeep (p p' : gomap string (list R)) : Prop := pshape p' /\ forall id, mget seq_dec p id <> None -> mget seq_dec p' id <> None.
  Lemma liftSt_sim conv conv' l (c : ct) s pool : (forall e p old, cvsh e -> length old = (n + n)%nat -> rsim cpost (conv p) (conv' e p old)) -> bsh s -> pshape pool -> (forall id, In id l -> mget seq_dec pool id <> None) ->
    rsim (fun v '(s', pool', v') => v = v' /\ bsh s' /\ pkeep pool pool' /\ forall x, In x (keys v) -> In x l) (liftCt conv l c) (liftSt conv' l c s pool).
  Proof.
    intros HC SH PS HI. unfold liftCt, liftSt.
    eapply (rsim_weak (fun v '(s', pool', v') => v = v' /\ bsh s' /\ pkeep pool pool' /\ forall x, In x (keys v) -> In x l)); [auto|].
    apply rsim_fold; [|split; [reflexivity|split; [exact SH|split; [split; auto|intros x []]]]].
    intros v [[t p] v'] id Hid (<- & St & [P1 P2] & KV). apply rsim_eq. intros q _. specialize (P2 id (HI id Hid)) as PN. destruct (mget seq_dec p id) as [old|] eqn:EO; [|congruence]. cbn [rbind].
    assert (CE : cvsh (bEv t)) by (unfold bsh in St; tauto). pose proof (HC (bEv t) (prows q) old CE (P1 _ _ EO)) as X.
    destruct (conv (prows q)) as [r|], (conv' (bEv t) (prows q) old) as [[e r']|]; cbn [rsim rbind] in X |- *; trivial. destruct X as (E & L & CV). cbn [fst snd] in E, CV. subst r'.
    split; [reflexivity|]. split; [apply bsh_Ev; assumption|]. split; [split|].
    - intros x y. rewrite mget_mset. destruct (seq_dec x id); [intros Z; injection Z as <-; exact L|apply P1].
    - intros x Hx. rewrite mget_mset. destruct (seq_dec x id); [discriminate|apply P2; exact Hx].
    - intros x Hx. apply (mget_In_keys seq_dec) in Hx. unfold cset in Hx. rewrite mget_mset in Hx. destruct (seq_dec x id) as [->|_]; [exact Hid|]. apply KV. apply (mget_In_keys seq_dec). exact Hx.
  Qed.
  Definition bhshape (h : bhoisted N) : Prop := forall id d, mget seq_dec h id = Some d -> shS pp (fst d) /\ shS pp (snd d).
  Definition bhkeep (h h' : bhoisted N) : Prop := bhshape h' /\ forall id, mget seq_dec h id <> None -> mget seq_dec h' id <> None.
  Definition bhinv level (h hp : bhoisted N) : Prop := forall id d, mget seq_dec h id = Some d -> exists d', mget seq_dec hp id = Some d' /\ d2rel level d d'.
  Definition bcovers (h : bhoisted N) (l : list string) : Prop := forall id, In id l -> mget seq_dec h id <> None.
  Lemma bhoistSt_sim level l (cR : ct) s hp : (level < n)%nat -> bsh s -> bhshape hp -> (forall id, In id l -> mget seq_dec hp id <> None) ->
    rsim (fun h '(s', hp') => bsh s' /\ bhkeep hp hp' /\ bhinv level h hp' /\ bcovers h l) (hoistCt b level l cR) (bhoistSt b level l cR s hp).
  Proof.
    intros HL SH HS HI. unfold hoistCt, bhoistSt.
    assert (G : forall l, (forall id, In id l -> mget seq_dec hp id <> None) -> forall h s hp', bsh s -> bhkeep hp hp' -> bhinv level h hp' ->
      rsim (fun h1 '(s1, hp1) => bsh s1 /\ bhkeep hp hp1 /\ bhinv level h1 hp1 /\ bcovers h1 l /\ forall id, mget seq_dec h id <> None -> mget seq_dec h1 id <> None)
        (rfold (fun acc id => p <- cget cR id ;; d <- DecomposeBFV b level (prows p) ;; Ok (mset seq_dec acc id d)) l h)
        (rfold (fun '(s, hp) id => p <- cget cR id ;; '(d1, d2) <- bhget hp id ;; '(s, d1, d2) <- DecBSt b level s (prows p) d1 d2 ;; Ok (s, mset seq_dec hp id (d1, d2))) l (s, hp'))).
    { clear l HI s SH. induction l as [|x l IH]; intros HI h s hp' Ss [HK1 HK2] IV; cbn [rfold].
      - cbn [rsim]. split; [exact Ss|]. split; [split; assumption|]. split; [exact IV|]. split; [intros id []|auto].
      - specialize (HK2 x (HI x (or_introl eq_refl))) as HX'. unfold bhget. destruct (mget seq_dec hp' x) as [[e1 e2]|] eqn:EB; [|congruence]. destruct (HK1 _ _ EB) as [SE1 SE2]. cbn [fst snd] in SE1, SE2.
        destruct (cget cR x) as [p|]; cbn [rbind]; [|exact I].
        pose proof (DecBSt_sim level s (prows p) e1 e2 HL Ss SE1 SE2) as D.
        destruct (DecomposeBFV b level (prows p)) as [[d1 d2]|], (DecBSt b level s (prows p) e1 e2) as [[[s' d1'] d2']|]; cbn [rsim rbind] in D |- *; trivial; try contradiction. destruct D as ((rp & RP & E) & S1 & S2 & D1 & D2). cbn [fst snd] in *. subst s'.
        assert (SH' : bsh (stRP s rp)) by (unfold bsh in Ss |- *; cbn; tauto).
        assert (KK : bhkeep hp (mset seq_dec hp' x (d1', d2'))).
        { split; [intros id d; rewrite mget_mset; destruct (seq_dec id x); [intros E; injection E as <-; split; assumption|apply HK1]|]. intros id Hid. rewrite mget_mset. destruct (seq_dec id x); [discriminate|apply HK2; exact Hid]. }
        assert (IV' : bhinv level (mset seq_dec h x (d1, d2)) (mset seq_dec hp' x (d1', d2'))).
        { intros id d. rewrite !mget_mset. destruct (seq_dec id x); [|apply IV]. intros E. injection E as <-. exists (d1', d2'). split; [reflexivity|split; assumption]. }
        specialize (IH (fun id Hid => HI id (or_intror Hid)) (mset seq_dec h x (d1, d2)) _ _ SH' KK IV').
        eapply rsim_weak; [|exact IH]. intros h1 [st1 hp1] (Q1 & Q2 & Q3 & Q4 & Q5). split; [exact Q1|]. split; [exact Q2|]. split; [exact Q3|]. split.
        + intros id [<-|Hid]; [|apply Q4; exact Hid]. apply Q5. rewrite mget_mset. destruct (seq_dec x x); [discriminate|congruence].
        + intros id Hid. apply Q5. rewrite mget_mset. destruct (seq_dec id x); [discriminate|exact Hid]. }
    eapply rsim_weak; [|apply (G l HI nil s hp SH); [split; auto|intros id d E; discriminate]].
    intros h [st' hp'] (Q1 & Q2 & Q3 & Q4 & _). tauto.
  Qed.

  (** *** the exported operations *)
  Definition bgood (c : ct) : Prop := shape (S (maxLevel pp)) c.
  Definition bwok (w : bworld N) : Prop :=
    bsh (bws w) /\ pshape (bwR1 w) /\ pshape (bwR2 w) /\ bhshape (bwH0 w) /\ bhshape (bwH1 w) /\ mget seq_dec (bwR1 w) id0 <> None /\ mget seq_dec (bwR2 w) id0 <> None /\
    forall id, mget seq_dec (bwk w) id <> None -> mget seq_dec (bwR1 w) id <> None /\ mget seq_dec (bwR2 w) id <> None /\ mget seq_dec (bwH0 w) id <> None /\ mget seq_dec (bwH1 w) id <> None.
  Definition mulok (w : bworld N) (c : ct) (r : bworld N * ct) : Prop := c = snd r /\ bwok (fst r) /\ bwk (fst r) = bwk w.
  Lemma maxn : (maxLevel pp < n)%nat. Proof. pose proof np. unfold maxLevel. cbn [ppQ Qm]. lia. Qed.
  Lemma bhrel_of level l h hp : bhinv level h hp -> bcovers h l -> bhrel level l (Some h) (Some hp).
  Proof. intros IV C id Hid. unfold bhget. specialize (C id Hid). destruct (mget seq_dec h id) as [d|] eqn:E; [|congruence]. destruct (IV id d E) as (d' & -> & D). exact D. Qed.
  Lemma bNew_level (o : order) (c0 c1 out : ct) l : bNewBinary pp o c0 c1 = Ok out -> ctLevel out = Ok l -> l = maxLevel pp.
  Proof.
    unfold bNewBinary. destruct (IDSetOf _ c0); cbn [rbind]; [|discriminate]. destruct (IDSetOf _ c1); cbn [rbind]; [|discriminate]. destruct (is_union _ _ _ _); cbn [rbind]; [|discriminate].
    intros E E2. injection E as <-. unfold bNewCiphertext in E2. apply (rowsAre_level _ _ _ (New_rows _ _ _) E2).
  Qed.
  Lemma bMulRelinNewSt_sim (o : order) crs w (c0 c1 : ct) : order_ok o -> bwok w -> bgood c0 -> bgood c1 -> (forall id, In id (parties c0) \/ In id (parties c1) -> mget seq_dec (bwk w) id <> None) ->
    rsim (mulok w) (bMulRelinNew b o crs c0 c1 (bwk w)) (bMulRelinNewSt b o crs w c0 c1).
  Proof.
    intros O (SH & PS1 & PS2 & HS0 & HS1 & Z1 & Z2 & KH) G0 G1 HK. unfold bMulRelinNew, bMulRelinNewSt, bMulRelinHoisted. apply rsim_eq. intros out EO. pose proof maxn as MN.
    assert (IN : forall (c : ct), (forall id, In id (parties c) -> mget seq_dec (bwk w) id <> None) -> forall id, In id (keys c) -> id = id0 \/ mget seq_dec (bwk w) id <> None).
    { intros c H id Hid. destruct (string_dec id id0) as [->|NE]; [left; reflexivity|right; apply H; apply in_parties; tauto]. }
    pose proof (liftSt_sim (ModUpQtoR b) (ModUpQtoRSt b) (o 40%nat (keys c0)) c0 (bws w) (bwR1 w) ModUpSt_sim SH PS1) as L0.
    match type of L0 with ?X -> _ => assert (K : X) end.
    { intros id Hid. apply (Permutation_in _ (O 40%nat _)) in Hid. destruct (IN c0 (fun i H => HK i (or_introl H)) id Hid) as [->|X]; [exact Z1|apply (KH id X)]. }
    eapply rsim_bind; [apply (L0 K)|]. clear L0 K. intros c0R [[s R1] c0R'] (<- & Ss & PK1 & KV0). cbv beta iota.
    pose proof (liftSt_sim (Rescale b) (RescaleSt b) (o 41%nat (keys c1)) c1 s (bwR2 w) RescaleSt_sim Ss PS2) as L1.
    match type of L1 with ?X -> _ => assert (K : X) end.
    { intros id Hid. apply (Permutation_in _ (O 41%nat _)) in Hid. destruct (IN c1 (fun i H => HK i (or_intror H)) id Hid) as [->|X]; [exact Z2|apply (KH id X)]. }
    eapply rsim_bind; [apply (L1 K)|]. clear L1 K. clear s Ss. intros c1R [[s R2] c1R'] (<- & Ss & PK2 & KV1). cbv beta iota.
    apply rsim_eq. intros ids0 E0. apply rsim_eq. intros ids1 E1. pose proof (ids_of_parties o _ _ _ O E0) as P0. pose proof (ids_of_parties o _ _ _ O E1) as P1.
    rewrite (shape_level _ _ G0), (shape_level _ _ G1). cbn [rbind].
    pose proof (bhoistSt_sim (maxLevel pp) (o 44%nat (keys ids0)) c0R s (bwH0 w) MN Ss HS0) as H0.
    match type of H0 with ?X -> _ => assert (K : X) end. { intros id Hid. apply (Permutation_in _ (O 44%nat _)), P0 in Hid. apply (KH id). apply HK. left. exact Hid. }
    eapply rsim_bind; [apply (H0 K)|]. clear H0 K. clear s Ss. intros h0 [s H0] (Ss & HK0 & IV0 & CV0). cbv beta iota.
    pose proof (bhoistSt_sim (maxLevel pp) (o 45%nat (keys ids1)) c1R s (bwH1 w) MN Ss HS1) as H1.
    match type of H1 with ?X -> _ => assert (K : X) end. { intros id Hid. apply (Permutation_in _ (O 45%nat _)), P1 in Hid. apply (KH id). apply HK. right. exact Hid. }
    eapply rsim_bind; [apply (H1 K)|]. clear H1 K. clear s Ss. intros h1 [s H1] (Ss & HK1 & IV1 & CV1). cbv beta iota.
    match goal with |- rsim _ ?m _ => replace m with (c <- m ;; Ok c) by (destruct m; reflexivity) end.
    eapply rsim_bind.
    { apply (bMulSt_sim true o crs s c0R c1R (Some h0) (Some H0) (Some h1) (Some H1) (bwk w) out O Ss); [intros l E; rewrite (bNew_level o c0 c1 out l EO E); exact MN| |discriminate].
      intros l E. rewrite (bNew_level o c0 c1 out l EO E). split; apply bhrel_of; trivial; intros id Hid; apply in_parties in Hid as [NE Hid].
      - apply CV0. apply (Permutation_in _ (Permutation_sym (O 44%nat _))), P0, in_parties. split; [exact NE|]. apply (Permutation_in _ (O 40%nat _)), KV0, Hid.
      - apply CV1. apply (Permutation_in _ (Permutation_sym (O 45%nat _))), P1, in_parties. split; [exact NE|]. apply (Permutation_in _ (O 41%nat _)), KV1, Hid. }
    intros c [s' c'] [E S']. cbn [fst snd] in E, S'. subst c'. cbn [rsim]. unfold mulok, bwok. cbn [fst snd bws bwk bwR1 bwR2 bwH0 bwH1]. split; [reflexivity|]. split; [|reflexivity].
    destruct PK1 as [PA PB]. destruct PK2 as [PC PD]. destruct HK0 as [PE PF]. destruct HK1 as [PG PH].
    split; [exact S'|]. split; [exact PA|]. split; [exact PC|]. split; [exact PE|]. split; [exact PG|]. split; [apply PB; exact Z1|]. split; [apply PD; exact Z2|].
    intros id Hid. destruct (KH id Hid) as (X1 & X2 & X3 & X4). auto.
  Qed.
  (** a party without a key: both versions panic *)
  Lemma rfold_keys {T} (f : T * gomap string (list R) * ct -> string -> res (T * gomap string (list R) * ct)) l : forall x y, rfold f l x = Ok y -> (forall x id y, f x id = Ok y -> forall k, In k (keys (snd x)) \/ k = id -> In k (keys (snd y))) ->
    forall k, In k (keys (snd x)) \/ In k l -> In k (keys (snd y)).
  Proof.
    clear. induction l as [|i l IH]; intros x y E H k Hk; cbn [rfold] in E; [injection E as <-; destruct Hk as [Hk|[]]; exact Hk|].
    destruct (f x i) as [z|] eqn:F; cbn [rbind] in E; [|discriminate]. apply (IH z y E H). destruct Hk as [Hk|[<-|Hk]]; [left; apply (H _ _ _ F); tauto|left; apply (H _ _ _ F); tauto|right; exact Hk].
  Qed.
  Lemma liftSt_keys conv l (c : ct) s p s' p' v k : liftSt conv l c s p = Ok (s', p', v) -> In k l -> In k (keys (v : ct)).
  Proof.
    intros E Hk. unfold liftSt in E. refine (rfold_keys _ l _ _ E _ k (or_intror Hk)). clear. intros [[t q] a] id [[t' q'] a'] E z Hz. destruct (cget c id); cbn [rbind] in E; [|discriminate]. destruct (mget seq_dec q id); cbn [rbind] in E; [|discriminate].
    destruct (conv _ _ _) as [[e r']|]; cbn [rbind] in E; [|discriminate]. injection E as _ _ <-. cbn [snd] in *. apply (mget_In_keys seq_dec). unfold cset. rewrite mget_mset. destruct (seq_dec z id) as [->|NE]; [discriminate|]. apply (mget_In_keys seq_dec). destruct Hz; [assumption|congruence].
  Qed.
  Lemma liftCt_keys conv l (c : ct) v k : liftCt conv l c = Ok v -> In k l -> In k (keys (v : ct)).
  Proof.
    intros E Hk. unfold liftCt in E.
    assert (G : forall l (a v : ct), rfold (fun (acc : ct) id => p <- cget c id ;; r <- conv (prows p) ;; Ok (cset acc id (Pol r false))) l a = Ok v -> In k (keys a) \/ In k l -> In k (keys v)).
    { clear. induction l as [|i l IH]; intros a v E H; cbn [rfold] in E; [injection E as <-; destruct H as [H|[]]; exact H|].
      destruct (cget c i); cbn [rbind] in E; [|discriminate]. destruct (conv _) as [rr|]; cbn [rbind] in E; [|discriminate]. apply (IH _ _ E).
      assert (X : In k (keys a) \/ k = i -> In k (keys (cset a i (Pol rr false)))).
      { intros Hz. apply (mget_In_keys seq_dec). unfold cset. rewrite mget_mset. destruct (seq_dec k i) as [->|NE]; [discriminate|]. apply (mget_In_keys seq_dec). destruct Hz; [assumption|congruence]. }
      destruct H as [H|[<-|H]]; tauto. }
    apply (G l nil v E). right. exact Hk.
  Qed.
  Lemma bvecSt_panic level g1 g2 set s1 s2 h (op : ct) (rs : brlkset N) l s id : In id l -> mget seq_dec rs id = None -> bvecSt b level g1 g2 set s1 s2 h op rs l s = Panic.
  Proof.
    intros HI E. unfold bvecSt. cbv zeta. rewrite (rfold_panics _ l id HI); [reflexivity|]. intros t. destruct (bdigSt b level t h op id) as [[[a d] d']|]; cbn [rbind]; [|reflexivity]. unfold brlk_get. rewrite E. reflexivity.
  Qed.
  Lemma bGenVec_panic level s1 s2 h (op : ct) (rs : brlkset N) l id : In id l -> mget seq_dec rs id = None -> bGenVec b level s1 s2 h op rs l = Panic.
  Proof.
    intros HI E. unfold bGenVec. cbv zeta. rewrite (rfold_panics _ l id HI); [reflexivity|]. intros t. destruct (bhdig b level h op id) as [[d d']|]; cbn [rbind]; [|reflexivity]. unfold brlk_get. rewrite E. reflexivity.
  Qed.
  Lemma bMulSt_panic hc (o : order) crs s (op0 op1 : ct) h0 h1 (rs : brlkset N) out id : order_ok o -> In id (parties op0) \/ In id (parties op1) -> mget seq_dec rs id = None -> bMulSt hc b o crs s op0 op1 h0 h1 rs out = Panic.
  Proof.
    intros O HI E. unfold bMulSt. apply rbind_panic. intros level _. apply rbind_panic. intros l0 _. destruct (l0 <? level)%nat; [reflexivity|].
    apply rbind_panic. intros ids0 E0. apply rbind_panic. intros ids1 E1. do 4 (apply rbind_panic; intros ? _). cbv zeta.
    pose proof (ids_of_parties o _ _ _ O E0) as P0. pose proof (ids_of_parties o _ _ _ O E1) as P1. destruct HI as [HI|HI].
    - rewrite (bvecSt_panic _ _ _ _ _ _ _ _ _ _ _ id); [reflexivity| |exact E]. apply (Permutation_in _ (Permutation_sym (O 2%nat _))). apply P0. exact HI.
    - apply rbind_panic. intros t _. rewrite (bvecSt_panic _ _ _ _ _ _ _ _ _ _ _ id); [reflexivity| |exact E]. apply (Permutation_in _ (Permutation_sym (O 3%nat _))). apply P1. exact HI.
  Qed.
  Lemma bMul_panic (o : order) crs (op0 op1 : ct) h0 h1 (rs : brlkset N) out id : order_ok o -> In id (parties op0) \/ In id (parties op1) -> mget seq_dec rs id = None -> MulAndRelinBFVHoisted b o crs op0 op1 h0 h1 rs out = Panic.
  Proof.
    intros O HI E. unfold MulAndRelinBFVHoisted. apply rbind_panic. intros level _. apply rbind_panic. intros l0 _. destruct (l0 <? level)%nat; [reflexivity|].
    apply rbind_panic. intros ids0 E0. apply rbind_panic. intros ids1 E1.
    pose proof (ids_of_parties o _ _ _ O E0) as P0. pose proof (ids_of_parties o _ _ _ O E1) as P1. destruct HI as [HI|HI].
    - rewrite (bGenVec_panic _ _ _ _ _ _ _ id); [reflexivity| |exact E]. apply (Permutation_in _ (Permutation_sym (O 2%nat _))). apply P0. exact HI.
    - apply rbind_panic. intros [t t'] _. rewrite (bGenVec_panic _ _ _ _ _ _ _ id); [reflexivity| |exact E]. apply (Permutation_in _ (Permutation_sym (O 3%nat _))). apply P1. exact HI.
  Qed.
  Lemma bMulRelinNewSt_panic (o : order) crs w (c0 c1 : ct) id : order_ok o -> In id (parties c0) \/ In id (parties c1) -> mget seq_dec (bwk w) id = None ->
    bMulRelinNewSt b o crs w c0 c1 = Panic /\ bMulRelinNew b o crs c0 c1 (bwk w) = Panic.
  Proof.
    intros O HI E. split.
    - unfold bMulRelinNewSt. apply rbind_panic. intros out _. apply rbind_panic. intros [[s1 R1] c0R] E0. apply rbind_panic. intros [[s2 R2] c1R] E1. do 3 (apply rbind_panic; intros ? _). apply rbind_panic. intros [s3 H0] _. apply rbind_panic. intros ? _. apply rbind_panic. intros [s4 H1] _.
      rewrite (bMulSt_panic true o crs s4 c0R c1R _ _ (bwk w) out id O); [reflexivity| |exact E].
      destruct HI as [HI|HI]; apply in_parties in HI as [NE HI]; [left|right]; apply in_parties; (split; [exact NE|]); [apply (liftSt_keys _ _ _ _ _ _ _ _ _ E0)|apply (liftSt_keys _ _ _ _ _ _ _ _ _ E1)]; apply (Permutation_in _ (Permutation_sym (O _ _))); exact HI.
    - unfold bMulRelinNew, bMulRelinHoisted. apply rbind_panic. intros out _. apply rbind_panic. intros c0R E0. apply rbind_panic. intros c1R E1. do 6 (apply rbind_panic; intros ? _).
      apply (bMul_panic o crs c0R c1R _ _ (bwk w) out id O); [|exact E].
      destruct HI as [HI|HI]; apply in_parties in HI as [NE HI]; [left|right]; apply in_parties; (split; [exact NE|]); [apply (liftCt_keys _ _ _ _ _ E0)|apply (liftCt_keys _ _ _ _ _ E1)]; apply (Permutation_in _ (Permutation_sym (O _ _))); exact HI.
  Qed.
  Lemma keys_dec (rs : brlkset N) (c0 c1 : ct) : (forall id, In id (parties c0) \/ In id (parties c1) -> mget seq_dec rs id <> None) \/ exists id, (In id (parties c0) \/ In id (parties c1)) /\ mget seq_dec rs id = None.
  Proof.
    assert (X : forall l, (forall id, In id l -> mget seq_dec rs id <> None) \/ exists id, In id l /\ mget seq_dec rs id = None).
    { induction l as [|x l [IH|(y & Hy & Ey)]]; [left; intros id []| |right; exists y; split; [right; exact Hy|exact Ey]].
      destruct (mget seq_dec rs x) eqn:E; [left; intros id [<-|Hid]; [congruence|apply IH; exact Hid]|right; exists x; split; [left; reflexivity|exact E]]. }
    destruct (X (parties c0 ++ parties c1)) as [A|(y & Hy & Ey)]; [left; intros id Hid; apply A; apply in_or_app; exact Hid|right; exists y; split; [apply in_app_or; exact Hy|exact Ey]].
  Qed.
  Lemma bMulRelinNewSt_all (o : order) crs w (c0 c1 : ct) : order_ok o -> bwok w -> bgood c0 -> bgood c1 -> rsim (mulok w) (bMulRelinNew b o crs c0 c1 (bwk w)) (bMulRelinNewSt b o crs w c0 c1).
  Proof.
    intros O WO G0 G1. destruct (keys_dec (bwk w) c0 c1) as [H|(id & Hid & E)]; [apply bMulRelinNewSt_sim; assumption|]. destruct (bMulRelinNewSt_panic o crs w c0 c1 id O Hid E) as [-> ->]. exact I.
  Qed.
  Lemma bRotateNewSt_sim (o : nat -> order) crs st (c : ct) k rk : (forall m, order_ok (o m)) -> sh pp st -> rsim (same pp) (bRotateNew pp o crs c k rk) (bRotateNewSt b o crs st c k rk).
  Proof.
    intros O SH. unfold bRotateNew, bRotateNewSt. apply rsim_eq. intros ids _. pose proof (@New_uniform N pp (o 0%nat 2%nat) ids (maxLevel pp) maxn) as U.
    unfold bRotate, bRotateSt. apply rsim_eq. intros z _. destruct (z =? 0).
    - unfold bNewCiphertext. destruct (Copy _ _ _) as [v|]; cbn [rsim rbind]; [split; [reflexivity|exact SH]|exact I].
    - apply rsim_eq. intros t _. destruct (mget Z.eq_dec crs z).
      + eapply rsim_weak; [|apply (RotateSt_sim pp WF (o 0%nat) crs st t None None z rk _ (O 0%nat) SH U); intros l _; exact I]. intros x y [X _]. exact X.
      + apply (rotChainSt_sim pp WF); assumption.
  Qed.
  Lemma bConjugateNewSt_sim (o : order) crs st (c : ct) ck : order_ok o -> sh pp st -> rsim (same pp) (bConjugateNew pp o crs c ck) (bConjugateNewSt b o crs st c ck).
  Proof.
    intros O SH. unfold bConjugateNew, bConjugateNewSt. apply rsim_eq. intros ids _. apply rsim_eq. intros t _. pose proof (@New_uniform N pp (o 61%nat) ids (maxLevel pp) maxn) as U.
    apply (ConjugateSt_sim pp WF o crs st t ck _ O SH). intros l E. apply (U l E).
  Qed.
  Definition bgoodop (op : bevop N) : Prop := match op with VMul c0 c1 => bgood c0 /\ bgood c1 | _ => True end.
  Definition bcpost (r r' : bworld N * option ct) : Prop := snd r = snd r' /\ bwok (fst r) /\ bwok (fst r').
  Lemma bwok_K w st : bwok w -> sh pp st -> bwok (BW (stK (bws w) st) (bwk w) (bwR1 w) (bwR2 w) (bwH0 w) (bwH1 w)).
  Proof. intros (A & B) S. unfold bwok. cbn [bws bwk bwR1 bwR2 bwH0 bwH1]. split; [apply bsh_K; assumption|exact B]. Qed.
  Lemma lenNew : length (newR b : list R) = (n + n)%nat. Proof. unfold newR. rewrite tab_length, app_length, (wb_len _ _ WB). reflexivity. Qed.
  Theorem bcall_sim crs (o : nat -> order) w w' op : (forall m, order_ok (o m)) -> bwok w -> bwok w' -> bwk w = bwk w' -> bgoodop op -> rsim bcpost (bcall b crs o w op) (bcall b crs o w' op).
  Proof.
    intros O WO WO' ER G.
    assert (KK : forall m nn nn', rsim (same pp) m nn -> rsim (same pp) m nn' -> rsim bcpost ('(st, c) <- nn ;; Ok (BW (stK (bws w) st) (bwk w) (bwR1 w) (bwR2 w) (bwH0 w) (bwH1 w), Some c)) ('(st, c) <- nn' ;; Ok (BW (stK (bws w') st) (bwk w') (bwR1 w') (bwR2 w') (bwH0 w') (bwH1 w'), Some c))).
    { intros m nn nn' H H'. eapply rsim_bind; [apply (rsim_join _ _ _ _ _ H H')|]. intros [s c] [s' c'] (a & [E S] & [E' S']). cbn [fst snd] in *. subst c c'. cbn [rsim]. unfold bcpost. cbn [fst snd]. split; [reflexivity|]. split; apply bwok_K; assumption. }
    assert (SK : sh pp (bK (bws w))) by (destruct WO as (X & _); unfold bsh in X; tauto). assert (SK' : sh pp (bK (bws w'))) by (destruct WO' as (X & _); unfold bsh in X; tauto).
    destruct op; cbn [bcall bgoodop] in *.
    - apply rsim_eq. intros c _. split; [reflexivity|split; assumption].
    - apply rsim_eq. intros c _. split; [reflexivity|split; assumption].
    - destruct G as [G0 G1]. pose proof (bMulRelinNewSt_all (o 0%nat) crs w c0 c1 (O 0%nat) WO G0 G1) as H. pose proof (bMulRelinNewSt_all (o 0%nat) crs w' c0 c1 (O 0%nat) WO' G0 G1) as H'. rewrite <- ER in H'.
      eapply rsim_bind; [apply (rsim_join _ _ _ _ _ H H')|]. intros [s c] [s' c'] (a & (E & S & K) & (E' & S' & K')). cbn [fst snd] in *. subst c c'. split; [reflexivity|split; assumption].
    - apply (KK (bRotateNew pp o crs c k rk)); apply bRotateNewSt_sim; assumption.
    - apply (KK (bConjugateNew pp (o 0%nat) crs c ck)); apply bConjugateNewSt_sim; trivial.
    - cbn [rsim]. unfold bcpost. cbn [fst snd]. split; [reflexivity|].
      assert (X : forall x, bwok x -> bwok (BW (bws x) (mset seq_dec (bwk x) id key) (mset seq_dec (bwR1 x) id (newR b)) (mset seq_dec (bwR2 x) id (newR b)) (mset seq_dec (bwH0 x) id (newSwk pp, newSwk pp)) (mset seq_dec (bwH1 x) id (newSwk pp, newSwk pp)))).
      { intros x (A1 & A2 & A3 & A4 & A5 & A6 & A7 & A8). pose proof (shS_new pp (N := N)) as SN. unfold bwok. cbn [bws bwk bwR1 bwR2 bwH0 bwH1]. split; [exact A1|].
        split; [intros y d; rewrite mget_mset; destruct (seq_dec y id); [intros E; injection E as <-; apply lenNew|apply A2]|].
        split; [intros y d; rewrite mget_mset; destruct (seq_dec y id); [intros E; injection E as <-; apply lenNew|apply A3]|].
        split; [intros y d; rewrite mget_mset; destruct (seq_dec y id); [intros E; injection E as <-; split; exact SN|apply A4]|].
        split; [intros y d; rewrite mget_mset; destruct (seq_dec y id); [intros E; injection E as <-; split; exact SN|apply A5]|].
        split; [rewrite mget_mset; destruct (seq_dec id0 id); [discriminate|exact A6]|]. split; [rewrite mget_mset; destruct (seq_dec id0 id); [discriminate|exact A7]|].
        intros y. rewrite !mget_mset. destruct (seq_dec y id); [repeat split; discriminate|apply A8]. }
      split; apply X; assumption.
    - cbn [rsim]. unfold bcpost. cbn [fst snd]. split; [reflexivity|].
      assert (X : forall x, bwok x -> bwok (BW (bws x) (mdel seq_dec (bwk x) id) (bwR1 x) (bwR2 x) (bwH0 x) (bwH1 x))).
      { intros x (A1 & A2 & A3 & A4 & A5 & A6 & A7 & A8). unfold bwok. cbn [bws bwk bwR1 bwR2 bwH0 bwH1]. do 7 (split; [assumption|]). intros y. rewrite mget_mdel. destruct (seq_dec y id); [congruence|apply A8]. }
      split; apply X; assumption.
  Qed.
  Lemma newBst_ok : bsh (newBst b).
  Proof.
    pose proof (@sh_new N pp) as A. pose proof (shS_new pp (N := N)) as SN. pose proof lenNew as LN. pose proof (wb_len _ _ WB) as LE.
    assert (CV : cvsh (newCV b)) by (unfold cvsh, newCV; cbn [vQ vM vR]; rewrite !tab_length, app_length; lia).
    assert (SR : shRP (newSwk (ppR b))) by (apply (shS_new (ppR b) (N := N))).
    assert (SQ : shq pp (Pol (tab n (fun _ => R0 : R)) false)) by (split; [cbn [prows]; apply tab_length|reflexivity]).
    unfold bsh, newBst. cbv zeta. cbn [bK bCv bEv bRP bw1 bw2 bw3 bw4 bw5 bw6 bq1 bq2 br1 br2 br3 br4]. tauto.
  Qed.
  Lemma newBworld_ok : bwok (newBworld b).
  Proof.
    unfold bwok, newBworld. cbn [bws bwk bwR1 bwR2 bwH0 bwH1]. split; [apply newBst_ok|].
    assert (X : pshape [(id0, newR b)]). { intros id x. cbn [mget]. destruct (seq_dec id id0); [intros E; injection E as <-; apply lenNew|discriminate]. }
    split; [exact X|]. split; [exact X|]. split; [discriminate|]. split; [discriminate|]. split; [discriminate|]. split; [discriminate|]. intros id H. destruct (H eq_refl).
  Qed.
End Sim.
