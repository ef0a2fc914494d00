(** The KeyGenerator and the Encryptor with state (GenPool.v) return what KeyGenModel.v, BfvMulModel.v and CtModel.v return on the rows their samplers wrote. *)
From Coq Require Import Znumtheory Setoid Morphisms.
From Verif Require Import Base IdSetModel KeySetModel NumTheory Negacyclic Ntt Word FloatModel BasisExt BasisExtProofs Rows RlweModel SchemeSpec ExtProd KeyGenModel Galois KeyGenProofs CtModel KeySwitchModel BfvModel BfvMulModel KsPool KsPoolProofs GenPool.
Open Scope Z_scope.

Lemma rmapM_ext {A B} (f g : A -> res B) l : (forall x, In x l -> f x = g x) -> rmapM f l = rmapM g l.
Proof. induction l as [|x l IH]; intros H; cbn [rmapM]; [reflexivity|]. rewrite (H x), IH by (try (left; reflexivity); intros; apply H; right; assumption). reflexivity. Qed.

Section Gen.
  Context {N : nat} (pp : rparams) (WF : wfp N pp) (om : nat -> list (R N)).
  Notation R := (R N).
  Notation gst := (gst N).
  Let L := maxLevel pp.
  Let nQ := length (Qm pp).
  Let nP := length (Pm pp).
  Let be := beta pp (maxLevel pp).

  Lemma L_nQ : S L = nQ.
  Proof. pose proof (wf_Qpos _ _ WF). unfold L, maxLevel, nQ. lia. Qed.
  Lemma nP_pos : (0 < nP)%nat.
  Proof. pose proof (gam_alpha_le pp WF). pose proof (wf_alpha _ _ WF). pose proof (wf_gam _ _ WF). unfold nP. nia. Qed.
  Lemma lP_nP : S (levelP pp) = nP.
  Proof. pose proof nP_pos. unfold levelP. fold nP. lia. Qed.

  Definition gsh (st : gst) : Prop := length (gQ st) = nQ /\ shQP pp (gQP st).
  Lemma newQP_sh : shQP pp (newQP pp : polyQP N).
  Proof. split; cbn; rewrite tab_length; reflexivity. Qed.
  Lemma newGst_sh : gsh (newGst pp).
  Proof. split; [cbn; rewrite tab_length; reflexivity|apply newQP_sh]. Qed.

  (** ** full-level writes leave nothing of the old content *)
  Lemma wrQ_full (new old : list R) : length old = nQ -> wr L new old = tab nQ (row new).
  Proof. intros E. unfold wr. rewrite E. apply tab_ext. intros j Hj. rewrite <- L_nQ in Hj. destruct (Nat.leb_spec j L); [reflexivity|lia]. Qed.
  Lemma wrP_full (new old : list R) : length old = nP -> wr (levelP pp) new old = tab nP (row new).
  Proof. intros E. unfold wr. rewrite E. apply tab_ext. intros j Hj. rewrite <- lP_nP in Hj. destruct (Nat.leb_spec j (levelP pp)); [reflexivity|lia]. Qed.
  Lemma tab_row n (f : nat -> R) : tab n (row (tab n f)) = tab n f.
  Proof. apply tab_ext. intros j Hj. unfold row. apply nth_tab. exact Hj. Qed.
  Lemma wrQP_full (new old : polyQP N) : shQP pp old -> wrQP pp L new old = QP (tab nQ (row (qpQ new))) (tab nP (row (qpP new))).
  Proof. intros [A B]. unfold wrQP. rewrite wrQ_full, wrP_full by assumption. reflexivity. Qed.
  Lemma lvlQ1_tab f (a : list R) : lvlQ1 pp L f a = tab nQ (fun j => f (Qi pp j) (row a j)).
  Proof. unfold lvlQ1. rewrite L_nQ. reflexivity. Qed.
  Lemma wr_lvl1 f (a old : polyQP N) : shQP pp old -> wrQP pp L (lvl1 pp L f a) old = lvl1 pp L f a.
  Proof. intros S. rewrite wrQP_full by exact S. unfold lvl1. cbn [qpQ qpP]. rewrite lvlQ1_tab. fold nP. rewrite !tab_row. reflexivity. Qed.
  Lemma wr_lvl3 f (a b c old : polyQP N) : shQP pp old -> wrQP pp L (lvl3 pp L f a b c) old = lvl3 pp L f a b c.
  Proof. intros S. rewrite wrQP_full by exact S. unfold lvl3, lvlQ3. cbn [qpQ qpP]. rewrite L_nQ. fold nP. rewrite !tab_row. reflexivity. Qed.
  Lemma lvl1_sh f (a : polyQP N) : shQP pp (lvl1 pp L f a).
  Proof. unfold lvl1, lvlQ1. split; cbn [qpQ qpP]; rewrite tab_length; [apply L_nQ|reflexivity]. Qed.

  (** ** the error sampler *)
  Lemma GaussSt_ok st (e : polyQP N) : shQP pp e -> GaussSt om pp st e = (GS (S (gn st)) (gQ st) (gQP st), GenGaussianError pp (om (gn st))).
  Proof.
    intros [A B]. unfold GaussSt, rd. f_equal.
    assert (S1 : shQP pp (QP (wr L (om (gn st)) (qpQ e)) (wr (levelP pp) (qpP (extP pp (wr L (om (gn st)) (qpQ e)))) (qpP e)))).
    { split; cbn; rewrite wr_length; assumption. }
    rewrite wr_lvl1 by exact S1. unfold GenGaussianError, lvl1. cbn [qpQ qpP]. fold L. fold nP. f_equal.
    - unfold lvlQ1. apply tab_ext. intros j Hj. rewrite wr_row by (rewrite A; rewrite L_nQ in Hj; exact Hj). destruct (Nat.leb_spec j L); [reflexivity|lia].
    - apply tab_ext. intros k Hk. rewrite wr_row by (rewrite B; exact Hk). rewrite <- lP_nP in Hk. destruct (Nat.leb_spec k (levelP pp)); [|lia].
      unfold extP. cbn [qpP]. unfold row at 1 3. rewrite !nth_tab by (fold nP; rewrite <- lP_nP; lia). f_equal.
      apply R_ext. intros i Hi. rewrite !co_mkR by exact Hi. rewrite wr_row by (rewrite A; fold nQ; rewrite <- L_nQ; lia). reflexivity.
  Qed.

  (** ** loops that fill a key *)
  Definition gpost {A} (st : gst) (c : nat) : gst * A -> A -> Prop := fun x v => snd x = v /\ gsh (fst x) /\ gn (fst x) = (gn st + c)%nat.
  Lemma fill_gen {A} c (f : gst -> nat -> res (gst * A)) (g : nat -> nat -> res A) n0 : forall n a st (acc : list A),
    (forall st i, gsh st -> (a <= i < a + n)%nat -> gn st = (n0 + c * i)%nat -> rsim (gpost st c) (f st i) (g (gn st) i)) -> gsh st -> gn st = (n0 + c * a)%nat ->
    rsim (gpost st (c * n)) (rfold (fun '(st, acc) i => '(st, x) <- f st i ;; Ok (st, acc ++ [x])) (seq a n) (st, acc))
         (ys <- rmapM (fun i => g (n0 + c * i)%nat i) (seq a n) ;; Ok (acc ++ ys)).
  Proof.
    induction n as [|n IH]; intros a st acc H S E.
    - cbn. rewrite app_nil_r. split; [reflexivity|]. cbn. split; [exact S|]. lia.
    - cbn [seq rfold rmapM]. pose proof (H st a S ltac:(lia) E) as Ha. rewrite <- E. unfold rsim in Ha.
      destruct (f st a) as [[st' x]|], (g (gn st) a) as [y|]; cbn [rbind]; try contradiction; [|exact Logic.I].
      destruct Ha as (E1 & S1 & N1). cbn [fst snd] in *. subst y.
      assert (H' : forall st0 i, gsh st0 -> (Datatypes.S a <= i < Datatypes.S a + n)%nat -> gn st0 = (n0 + c * i)%nat -> rsim (gpost st0 c) (f st0 i) (g (gn st0) i)).
      { intros st0 i S0 Hi E0. apply H; [exact S0|lia|exact E0]. }
      specialize (IH (Datatypes.S a) st' (acc ++ [x]) H' S1 ltac:(nia)).
      replace (ys <- (ys <- rmapM (fun i => g (n0 + c * i)%nat i) (seq (Datatypes.S a) n);; Ok (x :: ys));; Ok (acc ++ ys))
        with (ys <- rmapM (fun i => g (n0 + c * i)%nat i) (seq (Datatypes.S a) n);; Ok ((acc ++ [x]) ++ ys)).
      2:{ destruct (rmapM _ _); cbn [rbind]; [rewrite <- app_assoc; reflexivity|reflexivity]. }
      revert IH. unfold rsim, gpost. destruct (rfold _ _ _) as [[st2 z]|], (rbind _ _) as [w|]; trivial. cbn [fst snd]. intros (A1 & A2 & A3). split; [exact A1|]. split; [exact A2|]. nia.
  Qed.
  Lemma fillSt_ok {A} c (f : gst -> nat -> res (gst * A)) (g : nat -> nat -> res A) n st :
    (forall st' i, gsh st' -> (i < n)%nat -> gn st' = (gn st + c * i)%nat -> rsim (gpost st' c) (f st' i) (g (gn st') i)) -> gsh st ->
    rsim (gpost st (c * n)) (fillSt n f st) (rmapM (fun i => g (gn st + c * i)%nat i) (seq 0 n)).
  Proof.
    intros H S. unfold fillSt.
    replace (rmapM (fun i => g (gn st + c * i)%nat i) (seq 0 n)) with (ys <- rmapM (fun i => g (gn st + c * i)%nat i) (seq 0 n) ;; Ok (nil ++ ys)) by (destruct (rmapM _ _); reflexivity).
    apply fill_gen; [|exact S|lia]. intros st' i S' Hi. apply H; [exact S'|lia].
  Qed.

  (** ** one digit: the block of rows that receives P*s *)
  Lemma addBlock_ok i (pool q : list R) : length q = nQ ->
    addBlock pp i pool q = tab nQ (fun j => if ((i * alpha pp <=? j) && (j <? i * alpha pp + alpha pp))%nat then r_add (Qi pp j) (row q j) (row pool j) else row q j).
  Proof.
    intros LQ. unfold addBlock. fold L.
    assert (G : forall n, (n <= alpha pp)%nat -> fold_left (fun q j => let ix := (i * alpha pp + j)%nat in if (S L <=? ix)%nat then q else upd q ix (r_add (Qi pp ix) (row q ix) (row pool ix))) (seq 0 n) q
      = tab nQ (fun j => if ((i * alpha pp <=? j) && (j <? i * alpha pp + n))%nat then r_add (Qi pp j) (row q j) (row pool j) else row q j)).
    { induction n as [|n IH]; intros Hn.
      - cbn [seq fold_left]. rewrite (list_tab q nQ R0 LQ) at 1. apply tab_ext. intros j Hj. fold (row q j).
        destruct (Nat.leb_spec (i * alpha pp) j), (Nat.ltb_spec j (i * alpha pp + 0)); cbn; trivial; lia.
      - rewrite seq_S, fold_left_app, IH by lia. cbn [Nat.add fold_left]. destruct (Nat.leb_spec (S L) (i * alpha pp + n)) as [G|G].
        + apply tab_ext. intros j Hj. rewrite <- L_nQ in Hj. destruct (Nat.leb_spec (i * alpha pp) j), (Nat.ltb_spec j (i * alpha pp + n)), (Nat.ltb_spec j (i * alpha pp + S n)); cbn; trivial; lia.
        + rewrite L_nQ in G. apply (nth_ext _ _ R0 R0); [rewrite upd_length, !tab_length; reflexivity|]. intros j Hj. rewrite upd_length, tab_length in Hj.
          rewrite upd_nth by (rewrite tab_length; lia). rewrite !nth_tab by exact Hj. destruct (Nat.eqb_spec j (i * alpha pp + n)) as [->|NE].
          * unfold row at 1. rewrite nth_tab by lia. destruct (Nat.leb_spec (i * alpha pp) (i * alpha pp + n)), (Nat.ltb_spec (i * alpha pp + n) (i * alpha pp + n)), (Nat.ltb_spec (i * alpha pp + n) (i * alpha pp + S n)); cbn; trivial; lia.
          * destruct (Nat.leb_spec (i * alpha pp) j), (Nat.ltb_spec j (i * alpha pp + n)), (Nat.ltb_spec j (i * alpha pp + S n)); cbn; trivial; lia. }
    apply G. lia.
  Qed.

  (** ** GenSwitchingKey into any key of the right size *)
  Lemma GenSwkSt_ok st (sk : polyQP N) (dst : swk N) : gsh st -> shS pp dst ->
    rsim (gpost st be) (GenSwkSt om pp st sk dst) (Ok (GenSwitchingKey pp sk (fun i => om (gn st + i)%nat))).
  Proof.
    intros S [LD SD]. unfold GenSwkSt. fold L. set (pool := wr L (lvlQ1 pp L (fun m => r_scal m (Pprod pp)) (qpQ sk)) (gQ st)).
    assert (PO : pool = tab nQ (fun j => r_scal (Qi pp j) (Pprod pp) (row (qpQ sk) j))).
    { unfold pool. rewrite wrQ_full by apply S. rewrite lvlQ1_tab, tab_row. reflexivity. }
    set (dig := fun (n : nat) (i : nat) =>
      let e := lvl1 pp L r_mform (GenGaussianError pp (om n)) in
      QP (tab (Datatypes.S L) (fun j => if ((i * alpha pp <=? j) && (j <? i * alpha pp + alpha pp))%nat then r_add (Qi pp j) (row (qpQ e) j) (r_scal (Qi pp j) (Pprod pp) (row (qpQ sk) j)) else row (qpQ e) j)) (qpP e)).
    unfold fillInto.
    set (step := fun (st0 : gst) (i : nat) => o <- idx dst i ;; (let '(st1, e) := GaussSt om pp st0 o in let e := wrQP pp L (lvl1 pp L r_mform e) e in Ok (st1, QP (addBlock pp i (gQ st1) (qpQ e)) (qpP e)))).
    assert (ST : forall m st0 i, gsh st0 -> gQ st0 = pool -> (i < m)%nat -> (m <= be)%nat -> step st0 i = Ok (GS (Datatypes.S (gn st0)) (gQ st0) (gQP st0), dig (gn st0) i)).
    { intros m st0 i S0 P0 Hi Hm. unfold step, idx. destruct (nth_error dst i) as [o|] eqn:EO; [|apply nth_error_None in EO; fold be in LD; lia].
      assert (SO : shQP pp o) by (apply SD; apply nth_error_In in EO; exact EO).
      cbn [rbind]. rewrite GaussSt_ok by exact SO. cbn [gQ]. rewrite wr_lvl1 by apply lvl1_sh. f_equal. f_equal. unfold dig.
      rewrite addBlock_ok by (apply lvl1_sh). f_equal. rewrite L_nQ. apply tab_ext. intros j Hj. rewrite P0, PO. unfold row at 2. rewrite nth_tab by exact Hj. reflexivity. }
    assert (FI : forall m, (m <= be)%nat -> fillSt m step (setgQ st pool) = Ok (GS (gn st + m) pool (gQP st), tab m (fun i => dig (gn st + i)%nat i))).
    { induction m as [|m IH]; intros Hm.
      - unfold fillSt. cbn. unfold setgQ. rewrite Nat.add_0_r. reflexivity.
      - unfold fillSt in *. rewrite seq_S, rfold_app, IH by lia. cbn [rbind Nat.add rfold]. rewrite (ST be); [|split; [cbn [gQ]; rewrite PO, tab_length; reflexivity|apply S]|reflexivity|lia|lia].
        cbn [rbind gn gQ gQP]. f_equal. f_equal; [f_equal; lia|]. unfold tab. rewrite seq_S, map_app. reflexivity. }
    change (rsim (gpost st be) ('(st0, new) <- fillSt be step (setgQ st pool) ;; Ok (st0, new ++ skipn be dst)) (Ok (GenSwitchingKey pp sk (fun i => om (gn st + i)%nat)))). rewrite (FI be) by lia. cbn [rbind].
    rewrite skipn_all2 by (fold be in LD; lia). rewrite app_nil_r. unfold rsim, gpost. cbn [fst snd gn]. split; [reflexivity|]. split; [|reflexivity].
    split; [cbn; rewrite PO, tab_length; reflexivity|apply S].
  Qed.
  Lemma newSwk_sh : shS pp (newSwk pp : swk N).
  Proof. split; [apply tab_length|]. intros d H. unfold newSwk, tab in H. apply in_map_iff in H. destruct H as (i & <- & _). apply newQP_sh. Qed.

  Lemma gpost_Ok {A} (st : gst) c (m : res (gst * A)) v : rsim (gpost st c) m (Ok v) -> exists st', m = Ok (st', v) /\ gsh st' /\ gn st' = (gn st + c)%nat.
  Proof. unfold rsim. destruct m as [[st' x]|]; [|contradiction]. intros (E & S & Nn). cbn in *. subst. exists st'. split; [reflexivity|]. split; assumption. Qed.

  (** ** b = -s a + e with the error in poolQP *)
  Definition bEntry (a : swk N) (sk : polyQP N) (smp : list R) i : res (polyQP N) :=
    ai <- idx a i ;; Ok (lvl1 pp L r_mform (lvl2 pp L r_sub (GenGaussianError pp smp) (lvl1 pp L r_invmform (lvl2 pp L r_mont ai sk)))).
  Lemma genBEntry_ok (a : swk N) (sk : polyQP N) st i : gsh st -> rsim (gpost st 1) (genBEntry om pp gQP setgQP a sk st i) (bEntry a sk (om (gn st)) i).
  Proof.
    intros S. unfold genBEntry, bEntry. fold L. destruct (idx a i) as [ai|]; cbn [rbind]; [|exact Logic.I].
    rewrite GaussSt_ok by apply S. unfold rsim, gpost. cbn. split; [reflexivity|]. split; [|lia]. split; [apply S|]. apply lvl1_sh.
  Qed.

  Lemma GenRlkSt_ok crs st (sk r : secretKey N) : gsh st ->
    rsim (gpost st (3 * be)) (GenRlkSt om pp crs st sk r)
      (GenRelinearizationKey pp crs sk r (fun i => om (gn st + i)%nat) (fun i => om (gn st + be + i)%nat) (fun i => om (gn st + 2 * be + i)%nat)).
  Proof.
    intros S. unfold GenRlkSt, GenRelinearizationKey. fold L. change (beta pp L) with be. destruct (length (Pm pp) =? 0)%nat; [exact Logic.I|].
    destruct (crs_get crs 0) as [a|]; cbn [rbind]; [|exact Logic.I]. destruct (crs_get crs (-1)) as [u|]; cbn [rbind]; [|exact Logic.I].
    pose proof (fillSt_ok 1 (genBEntry om pp gQP setgQP a (sk_val sk)) (fun n i => bEntry a (sk_val sk) (om n) i) be st) as F.
    specialize (F ltac:(intros st' i S' _ _; apply genBEntry_ok; exact S') S).
    assert (EB : rmapM (fun i => bEntry a (sk_val sk) (om (gn st + 1 * i)%nat) i) (seq 0 be) =
      rmapM (fun i => ai <- idx a i ;; Ok (lvl1 pp L r_mform (lvl2 pp L r_sub (GenGaussianError pp (om (gn st + i)%nat)) (lvl1 pp L r_invmform (lvl2 pp L r_mont ai (sk_val sk)))))) (seq 0 be)).
    { apply rmapM_ext. intros i _. unfold bEntry. rewrite Nat.mul_1_l. reflexivity. }
    cbv beta in F. rewrite EB in F. clear EB. unfold rsim in F.
    destruct (fillSt be _ st) as [[st1 b]|], (rmapM _ (seq 0 be)) as [b'|]; try contradiction; cbn [rbind]; [|exact Logic.I].
    destruct F as (<- & S1 & N1). cbn [fst snd] in *.
    destruct (gpost_Ok _ _ _ _ (GenSwkSt_ok st1 (sk_val sk) (newSwk pp) S1 newSwk_sh)) as (st2 & E2 & S2 & N2). rewrite E2. cbn [rbind].
    replace (gn st1) with (gn st + be)%nat by lia. unfold zipSt. fold L.
    destruct (swk_zip pp _ a _) as [d|]; cbn [rbind]; [|exact Logic.I].
    destruct (gpost_Ok _ _ _ _ (GenSwkSt_ok st2 (sk_val r) (newSwk pp) S2 newSwk_sh)) as (st3 & E3 & S3 & N3). rewrite E3. cbn [rbind].
    replace (gn st2) with (gn st + 2 * be)%nat by lia.
    destruct (swk_zip pp _ u _) as [v|]; cbn [rbind]; [|exact Logic.I].
    unfold rsim, gpost. cbn [fst snd]. split; [reflexivity|]. split; [exact S3|]. lia.
  Qed.

  Lemma GenPkSt_ok crs st sk : gsh st -> rsim (gpost st 1) (GenPkSt om pp crs st sk) (GenPublicKey pp crs sk (om (gn st))).
  Proof.
    intros S. unfold GenPkSt, GenPublicKey. fold L. rewrite GaussSt_ok by apply newQP_sh.
    destruct (crs_get crs 0) as [c|]; cbn [rbind]; [|exact Logic.I]. destruct (idx c 0) as [a|]; cbn [rbind]; [|exact Logic.I].
    unfold rsim, gpost. cbn [fst snd gn]. split; [|split; [exact S|lia]]. rewrite wr_lvl3 by apply lvl1_sh. reflexivity.
  Qed.
  Lemma GenRotSt_ok crs st k sk : gsh st -> rsim (gpost st be) (GenRotSt om pp crs st k sk) (GenRotationKey pp crs k sk (fun i => om (gn st + i)%nat)).
  Proof.
    intros S. unfold GenRotSt, GenRotationKey. fold L. destruct (crs_get crs k) as [c|]; cbn [rbind]; [|exact Logic.I]. destruct (norm_rot N k) as [k'|]; cbn [rbind]; [|exact Logic.I].
    destruct (gpost_Ok _ _ _ _ (GenSwkSt_ok st (sk_val sk) (newSwk pp) S newSwk_sh)) as (st2 & E2 & S2 & N2). rewrite E2. cbn [rbind].
    destruct (crs_get crs k') as [a|]; cbn [rbind]; [|exact Logic.I]. unfold zipSt. fold L. destruct (swk_zip pp _ a _) as [v|]; cbn [rbind]; [|exact Logic.I].
    unfold rsim, gpost. cbn [fst snd]. split; [reflexivity|]. split; assumption.
  Qed.
  Lemma GenConjSt_ok crs st sk : gsh st -> rsim (gpost st be) (GenConjSt om pp crs st sk) (GenConjugationKey pp crs sk (fun i => om (gn st + i)%nat)).
  Proof.
    intros S. unfold GenConjSt, GenConjugationKey. fold L.
    destruct (gpost_Ok _ _ _ _ (GenSwkSt_ok st (permQP pp (conjEl N) (sk_val sk)) (newSwk pp) S newSwk_sh)) as (st2 & E2 & S2 & N2). rewrite E2. cbn [rbind].
    destruct (crs_get crs (-2)) as [a|]; cbn [rbind]; [|exact Logic.I]. unfold zipSt. fold L. destruct (swk_zip pp _ a _) as [v|]; cbn [rbind]; [|exact Logic.I].
    unfold rsim, gpost. cbn [fst snd]. split; [reflexivity|]. split; assumption.
  Qed.
  Lemma GenSkGauss_ok st id : gsh st -> GenSkGaussSt om pp st id = (GS (S (gn st)) (gQ st) (gQP st), genSecretKeyFromSampler pp id (om (gn st))).
  Proof.
    intros S. unfold GenSkGaussSt, rd. f_equal. unfold genSecretKeyFromSampler. f_equal. fold L.
    assert (E : lvl1 pp L ntt (extP pp (wr L (om (gn st)) (tab (length (Qm pp)) (fun _ => R0)))) = lvl1 pp L ntt (extP pp (om (gn st)))).
    { unfold lvl1. cbn [qpQ qpP extP]. assert (A : length (tab (length (Qm pp)) (fun _ => R0 : R)) = nQ) by apply tab_length. f_equal.
      - unfold lvlQ1. apply tab_ext. intros j Hj. rewrite wr_row by (rewrite A; rewrite L_nQ in Hj; exact Hj). destruct (Nat.leb_spec j L); [reflexivity|lia].
      - fold nP. apply tab_ext. intros k Hk. unfold row at 1 3. rewrite !nth_tab by exact Hk. f_equal. apply R_ext. intros i Hi. rewrite !co_mkR by exact Hi. rewrite wr_row by (rewrite A; rewrite <- L_nQ; lia). reflexivity. }
    rewrite E. reflexivity.
  Qed.

  (** ** mkbfv *)
  Lemma pair_loop (a1 a2 : swk N) (sk : polyQP N) n0 : forall n a st e1 e2 (b1 b2 : swk N), gsh st -> shQP pp e1 -> shQP pp e2 -> gn st = (n0 + 2 * a)%nat ->
    rsim (fun x y => let '(st', _, _, x1, x2) := x in (x1, x2) = y /\ gsh st' /\ gn st' = (gn st + 2 * n)%nat)
      (rfold (fun '(st, e1, e2, b1, b2) i =>
        x1 <- idx a1 i ;;
        let m1 := lvl1 pp L r_invmform (lvl2 pp L r_mont x1 sk) in
        let '(st, e1) := GaussSt om pp st e1 in
        let m1 := lvl1 pp L r_mform (lvl2 pp L r_sub e1 m1) in
        x2 <- idx a2 i ;;
        let m2 := lvl1 pp L r_invmform (lvl2 pp L r_mont x2 sk) in
        let '(st, e2) := GaussSt om pp st e2 in
        let m2 := lvl1 pp L r_mform (lvl2 pp L r_sub e2 m2) in
        Ok (st, e1, e2, b1 ++ [m1], b2 ++ [m2])) (seq a n) (st, e1, e2, b1, b2))
      (y1 <- rmapM (fun i => bEntry a1 sk (om (n0 + 2 * i)%nat) i) (seq a n) ;;
       y2 <- rmapM (fun i => bEntry a2 sk (om (n0 + 2 * i + 1)%nat) i) (seq a n) ;; Ok (b1 ++ y1, b2 ++ y2)).
  Proof.
    induction n as [|n IH]; intros a st e1 e2 b1 b2 S S1 S2 E.
    - cbn. rewrite !app_nil_r. split; [reflexivity|]. split; [exact S|]. lia.
    - cbn [seq rfold rmapM]. unfold bEntry at 1. destruct (idx a1 a) as [x1|]; cbn [rbind]; [|exact Logic.I].
      rewrite GaussSt_ok by exact S1.
      destruct (idx a2 a) as [x2|] eqn:E2; cbn [rbind].
      2:{ destruct (rmapM (fun i => bEntry a1 sk (om (n0 + 2 * i)%nat) i) (seq (Datatypes.S a) n)); cbn [rbind]; [|exact Logic.I]. unfold bEntry at 1. rewrite E2. exact Logic.I. }
      rewrite GaussSt_ok by exact S2. cbn [gn gQ gQP].
      pose (m1 := lvl1 pp L r_mform (lvl2 pp L r_sub (GenGaussianError pp (om (gn st))) (lvl1 pp L r_invmform (lvl2 pp L r_mont x1 sk)))). pose (m2 := lvl1 pp L r_mform (lvl2 pp L r_sub (GenGaussianError pp (om (Datatypes.S (gn st)))) (lvl1 pp L r_invmform (lvl2 pp L r_mont x2 sk)))).
      specialize (IH (Datatypes.S a) (GS (Datatypes.S (Datatypes.S (gn st))) (gQ st) (gQP st)) (GenGaussianError pp (om (gn st))) (GenGaussianError pp (om (Datatypes.S (gn st)))) (b1 ++ [m1]) (b2 ++ [m2]) S (lvl1_sh _ _) (lvl1_sh _ _) ltac:(cbn [gn]; lia)).
      assert (EE : (y1 <- (ys <- rmapM (fun i => bEntry a1 sk (om (n0 + 2 * i)%nat) i) (seq (Datatypes.S a) n);; Ok (lvl1 pp L r_mform (lvl2 pp L r_sub (GenGaussianError pp (om (n0 + 2 * a)%nat)) (lvl1 pp L r_invmform (lvl2 pp L r_mont x1 sk))) :: ys));;
              y2 <- (y <- bEntry a2 sk (om (n0 + 2 * a + 1)%nat) a;; ys <- rmapM (fun i => bEntry a2 sk (om (n0 + 2 * i + 1)%nat) i) (seq (Datatypes.S a) n);; Ok (y :: ys));; Ok (b1 ++ y1, b2 ++ y2)) =
            (y1 <- rmapM (fun i => bEntry a1 sk (om (n0 + 2 * i)%nat) i) (seq (Datatypes.S a) n);; y2 <- rmapM (fun i => bEntry a2 sk (om (n0 + 2 * i + 1)%nat) i) (seq (Datatypes.S a) n);; Ok ((b1 ++ [m1]) ++ y1, (b2 ++ [m2]) ++ y2))).
      { destruct (rmapM (fun i => bEntry a1 sk (om (n0 + 2 * i)%nat) i) (seq (Datatypes.S a) n)) as [y1|]; cbn [rbind]; [|reflexivity].
        unfold bEntry at 1. rewrite E2. cbn [rbind]. destruct (rmapM (fun i => bEntry a2 sk (om (n0 + 2 * i + 1)%nat) i) (seq (Datatypes.S a) n)) as [y2|]; cbn [rbind]; [|reflexivity].
        rewrite <- !app_assoc. cbn [app]. unfold m1, m2. rewrite E. replace (n0 + 2 * a + 1)%nat with (Datatypes.S (n0 + 2 * a)) by lia. reflexivity. }
      rewrite EE. revert IH. apply rsim_weak. intros [[[[st' ?] ?] z1] z2] y (A1 & A2 & A3). split; [exact A1|]. split; [exact A2|]. cbn [gn] in A3. lia.
  Qed.
End Gen.

Lemma rsim_bind2 {A B1 B2 C D} (P : A -> list B1 * list B2 -> Prop) (Q : C -> D -> Prop) (m : res A) (a : res (list B1)) (b : res (list B2)) f (k : list B1 -> list B2 -> res D) :
  rsim P m (y1 <- a ;; y2 <- b ;; Ok (nil ++ y1, nil ++ y2)) -> (forall x y1 y2, P x (y1, y2) -> rsim Q (f x) (k y1 y2)) -> rsim Q (rbind m f) (y1 <- a ;; y2 <- b ;; k y1 y2).
Proof.
  intros H G. destruct m as [x|], a as [y1|]; cbn [rbind] in *; try contradiction; try exact Logic.I; destruct b as [y2|]; cbn [rbind] in *; try contradiction; try exact Logic.I.
  apply G. exact H.
Qed.

Lemma rbind_bind {A B C} (m : res A) (f : A -> res B) (g : B -> res C) : rbind (rbind m f) g = rbind m (fun x => rbind (f x) g).
Proof. destruct m; reflexivity. Qed.

Section BGen.
  Context {N : nat} (b : bparams) (WF : wfp N (ppQ b)) (om : nat -> list (R N)).
  Let pp := ppQ b.
  Let L := maxLevel pp.
  Let be := beta pp (maxLevel pp).
  Lemma GenBSwkSt_ok ms st (sk : polyQP N) : gsh pp st ->
    rsim (gpost pp st be) (GenBSwkSt om b ms st sk) (rmapM (fun i => g <- gadInt b ms i ;; Ok (bfvDigit b sk g (om (gn st + i)%nat))) (seq 0 be)).
  Proof.
    intros S. unfold GenBSwkSt.
    set (f := fun (st0 : gst N) (i : nat) => g <- gadInt b ms i ;; (let '(st1, e) := GaussSt om (ppQ b) st0 (newQP (ppQ b)) in
      Ok (st1, lvl1 (ppQ b) (maxLevel (ppQ b)) r_mform (lvl2 (ppQ b) (maxLevel (ppQ b)) r_add (lvl1 (ppQ b) (maxLevel (ppQ b)) (fun m => r_scal m g) (lvl1 (ppQ b) (maxLevel (ppQ b)) r_invmform sk)) e)))).
    pose proof (fillSt_ok pp 1 f (fun n i => g <- gadInt b ms i ;; Ok (bfvDigit b sk g (om n))) be st) as F.
    assert (H : forall st' i, gsh pp st' -> (i < be)%nat -> gn st' = (gn st + 1 * i)%nat -> rsim (gpost pp st' 1) (f st' i) (g <- gadInt b ms i ;; Ok (bfvDigit b sk g (om (gn st'))))).
    { intros st' i S' _ _. unfold f. destruct (gadInt b ms i) as [g|]; cbn [rbind]; [|exact Logic.I]. rewrite (GaussSt_ok (ppQ b) WF) by apply newQP_sh.
      unfold rsim, gpost. cbn [fst snd gn]. split; [reflexivity|]. split; [exact S'|lia]. }
    specialize (F H S). replace (1 * be)%nat with be in F by lia.
    assert (E : rmapM (fun i => g <- gadInt b ms i ;; Ok (bfvDigit b sk g (om (gn st + i)%nat))) (seq 0 be) = rmapM (fun i => g <- gadInt b ms i ;; Ok (bfvDigit b sk g (om (gn st + 1 * i)%nat))) (seq 0 be)).
    { apply rmapM_ext. intros i _. rewrite Nat.mul_1_l. reflexivity. }
    rewrite E. exact F.
  Qed.
  Lemma GenBRlkSt_ok crs st (sk r : secretKey N) : gsh pp st ->
    rsim (gpost pp st (5 * be)) (GenBRlkSt om b crs st sk r)
      (bGenRelinearizationKey b crs sk r (fun i => om (gn st + 2 * i)%nat) (fun i => om (gn st + 2 * i + 1)%nat)
         (fun i => om (gn st + 2 * be + i)%nat) (fun i => om (gn st + 3 * be + i)%nat) (fun i => om (gn st + 4 * be + i)%nat)).
  Proof.
    intros S. unfold GenBRlkSt, bGenRelinearizationKey. fold pp. fold L. change (beta pp L) with be.
    destruct (crs_get crs 0) as [a1|]; cbn [rbind]; [|exact Logic.I]. destruct (crs_get crs (-3)) as [a2|]; cbn [rbind]; [|exact Logic.I]. destruct (crs_get crs (-1)) as [u|]; cbn [rbind]; [|exact Logic.I].
    pose proof (pair_loop pp WF om a1 a2 (sk_val sk) (gn st) be 0 st (newQP pp) (newQP pp) nil nil S (newQP_sh pp) (newQP_sh pp) ltac:(lia)) as F.
    unfold genB. fold pp. fold L. change (beta pp L) with be.
    refine (rsim_bind2 _ _ _ _ _ _ _ F _).
    clear F. intros [[[[st1 e1] e2] b1] b2] y1 y2 (E & S1 & N1). injection E as -> ->.
    unfold GenBFVSwitchingKey. fold pp. fold L. change (beta pp L) with be.
    rewrite rbind_bind.
    replace (gn st + 2 * be)%nat with (gn st1) by lia.
    apply (rsim_bind _ _ _ _ _ _ (GenBSwkSt_ok (Qs pp) st1 (sk_val sk) S1)).
    intros [st2 k1] k1' (X1 & S2 & N2). cbn [fst snd] in X1, S2, N2. subst k1'.
    rewrite rbind_bind.
    replace (gn st + 3 * be)%nat with (gn st2) by lia.
    apply (rsim_bind _ _ _ _ _ _ (GenBSwkSt_ok (Ms b) st2 (sk_val sk) S2)).
    intros [st3 k2] k2' (X2 & S3 & N3). cbn [fst snd] in X2, S3, N3. subst k2'.
    unfold rbind.
    unfold zipSt.
    destruct (swk_zip pp _ a1 k1) as [d1|]; [|exact Logic.I].
    destruct (swk_zip pp _ a2 k2) as [d2|]; [|exact Logic.I].
    destruct (gpost_Ok pp _ _ _ _ (GenSwkSt_ok pp WF om st3 (sk_val r) (newSwk pp) S3 (newSwk_sh pp))) as (st4 & E4 & S4 & N4). rewrite E4.
    replace (gn st3) with (gn st + 4 * be)%nat by lia.
    destruct (swk_zip pp _ u _) as [v|]; [|exact Logic.I].
    unfold rsim, gpost. cbn [fst snd]. split; [reflexivity|]. split; [exact S4|]. fold be in N4. lia.
  Qed.
End BGen.
