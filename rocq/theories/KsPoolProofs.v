(** The scratch buffers of the KeySwitcher never influence a result: the model with explicit buffers (KsPool.v) returns what the model with local
    scratch values (KeySwitchModel.v) returns, from any buffer contents of the right shape. *)
From Flocq Require Import Core BinarySingleNaN.
From Coq Require Import Znumtheory.
From Verif Require Import Base IdSetModel IdSetSpec KeySetModel NumTheory Negacyclic Ntt Word FloatModel BasisExt BasisExtProofs DecompProofs Rows RlweModel KeyGenModel SchemeSpec ExtProd Galois KeyGenProofs CtModel CtSpec CtProofs EncDecProofs KeySwitchModel Digits KsLoops RotProofs CkksModel KsPool.
Open Scope Z_scope.

(** two computations panic together or return related values *)
Definition rsim {A B} (P : A -> B -> Prop) (m : res A) (n : res B) : Prop :=
  match m, n with Ok a, Ok b => P a b | Panic, Panic => True | _, _ => False end.
Lemma rsim_bind {A B C D} (P : A -> B -> Prop) (Q : C -> D -> Prop) m n f g : rsim P m n -> (forall a b, P a b -> rsim Q (f a) (g b)) -> rsim Q (rbind m f) (rbind n g).
Proof. unfold rsim, rbind. intros H K. destruct m, n; trivial; try contradiction. apply (K _ _ H). Qed.
Lemma rsim_eq {A C D} (Q : C -> D -> Prop) (m : res A) f g : (forall a, m = Ok a -> rsim Q (f a) (g a)) -> rsim Q (rbind m f) (rbind m g).
Proof. intros H. destruct m; cbn [rbind]; [apply H; reflexivity|exact I]. Qed.
Lemma rsim_fold {A B C} (P : A -> B -> Prop) (f : A -> C -> res A) (g : B -> C -> res B) l : forall a b,
  (forall a b x, In x l -> P a b -> rsim P (f a x) (g b x)) -> P a b -> rsim P (rfold f l a) (rfold g l b).
Proof.
  induction l as [|x l IH]; intros a b H K; cbn [rfold]; [exact K|].
  apply (rsim_bind P); [apply H; [left; reflexivity|exact K]|]. intros a' b' K'. apply IH; [|exact K']. intros a1 b1 y Hy. apply H. right. exact Hy.
Qed.
Lemma rsim_mapM {A B C} (P : B -> C -> Prop) (f : A -> res B) (g : A -> res C) l : (forall x, In x l -> rsim P (f x) (g x)) -> rsim (Forall2 P) (rmapM f l) (rmapM g l).
Proof.
  induction l as [|x l IH]; intros H; cbn [rmapM]; [constructor|].
  apply (rsim_bind P); [apply H; left; reflexivity|]. intros b c K. apply (rsim_bind (Forall2 P)); [apply IH; intros y Hy; apply H; right; exact Hy|].
  intros bs cs Ks. constructor; assumption.
Qed.
Lemma rsim_weak {A B} (P Q : A -> B -> Prop) m n : (forall a b, P a b -> Q a b) -> rsim P m n -> rsim Q m n.
Proof. unfold rsim. destruct m, n; auto. Qed.
Lemma Forall2_nth {A B} (P : A -> B -> Prop) l l' i d d' : Forall2 P l l' -> (i < length l)%nat -> P (nth i l d) (nth i l' d').
Proof. intros H. revert i. induction H as [|x y l l' H1 H2 IH]; intros [|i] Hi; cbn in *; try lia; trivial. apply IH. lia. Qed.

Lemma Forall2_len {A B} (P : A -> B -> Prop) l l' : Forall2 P l l' -> length l = length l'.
Proof. induction 1; cbn; congruence. Qed.

Section Sim.
  Context {N : nat} (pp : rparams) (WF : wfp N pp).
  Notation R := (R N). Notation ct := (ctT N). Notation kst := (kst N).
  Notation nQ := (length (Qm pp)). Notation nP := (length (Pm pp)).

  (** *** shapes *)
  Definition shQP (d : polyQP N) : Prop := length (qpQ d) = nQ /\ length (qpP d) = nP.
  Definition shS (s : swk N) : Prop := length s = beta pp (maxLevel pp) /\ forall d, In d s -> shQP d.
  Definition shq (q : poly N) : Prop := length (prows q) = nQ /\ pntt q = false.
  Definition sh (st : kst) : Prop :=
    shQP (kP0 st) /\ shQP (kP1 st) /\ length (kInv st) = nQ /\ shq (kq0 st) /\ shq (kq1 st) /\ shq (kq2 st) /\ shS (ks1 st) /\ shS (ks2 st) /\ shS (ks3 st).
  (** equal in the rows a Lvl operation reads *)
  Definition eqQ (level : nat) (a b : list R) : Prop := forall j, (j <= level)%nat -> row a j = row b j.
  Definition eqQP (level : nat) (a b : polyQP N) : Prop := eqQ level (qpQ a) (qpQ b) /\ forall k, (k < nP)%nat -> row (qpP a) k = row (qpP b) k.
  Definition drel (level : nat) (a b : swk N) : Prop := forall i, (i < beta pp level)%nat -> rsim (eqQP level) (idx a i) (idx b i).
  Lemma eqQ_refl level a : eqQ level a a. Proof. intros j _. reflexivity. Qed.
  Lemma eqQP_refl level a : eqQP level a a. Proof. split; [apply eqQ_refl|reflexivity]. Qed.
  Lemma drel_refl level a : drel level a a. Proof. intros i _. unfold rsim. destruct (idx a i); [apply eqQP_refl|exact I]. Qed.

  Lemma lvlQ1_ext level f a b : eqQ level a b -> lvlQ1 pp level f a = lvlQ1 pp level f b.
  Proof. intros H. unfold lvlQ1. apply tab_ext. intros i Hi. rewrite H by lia. reflexivity. Qed.
  Lemma lvlQ2_ext level f a a' b b' : eqQ level a a' -> eqQ level b b' -> lvlQ2 pp level f a b = lvlQ2 pp level f a' b'.
  Proof. intros H K. unfold lvlQ2. apply tab_ext. intros i Hi. rewrite H, K by lia. reflexivity. Qed.
  Lemma lvlQ3_ext level f a a' b b' c c' : eqQ level a a' -> eqQ level b b' -> eqQ level c c' -> lvlQ3 pp level f a b c = lvlQ3 pp level f a' b' c'.
  Proof. intros H K L. unfold lvlQ3. apply tab_ext. intros i Hi. rewrite H, K, L by lia. reflexivity. Qed.
  Lemma lvl1_ext level f a b : eqQP level a b -> lvl1 pp level f a = lvl1 pp level f b.
  Proof. intros [H K]. unfold lvl1. f_equal; [apply lvlQ1_ext; exact H|]. apply tab_ext. intros i Hi. rewrite K by lia. reflexivity. Qed.
  Lemma lvl2_ext level f a a' b b' : eqQP level a a' -> eqQP level b b' -> lvl2 pp level f a b = lvl2 pp level f a' b'.
  Proof. intros [H K] [H' K']. unfold lvl2. f_equal; [apply lvlQ2_ext; assumption|]. apply tab_ext. intros i Hi. rewrite K, K' by lia. reflexivity. Qed.
  Lemma lvl3_ext level f a a' b b' c c' : eqQP level a a' -> eqQP level b b' -> eqQP level c c' -> lvl3 pp level f a b c = lvl3 pp level f a' b' c'.
  Proof. intros [H K] [H' K'] [H'' K'']. unfold lvl3. f_equal; [apply lvlQ3_ext; assumption|]. apply tab_ext. intros i Hi. rewrite K, K', K'' by lia. reflexivity. Qed.

  Lemma wr_length level new old : length (wr level new old : list R) = length old. Proof. apply tab_length. Qed.
  Lemma wr_row level (new old : list R) j : (j < length old)%nat -> row (wr level new old) j = if (j <=? level)%nat then row new j else row old j.
  Proof. intros H. unfold wr, row at 1. rewrite nth_tab by exact H. reflexivity. Qed.
  Lemma wr_eq level (new old : list R) : (level < length old)%nat -> eqQ level new (wr level new old).
  Proof. intros H j Hj. rewrite wr_row by lia. destruct (Nat.leb_spec j level); [reflexivity|lia]. Qed.
  Lemma levelP_nP k : (k < nP)%nat -> (k <= levelP pp)%nat. Proof. unfold levelP. lia. Qed.
  Lemma wrQP_eq level new old : (level < nQ)%nat -> shQP old -> eqQP level new (wrQP pp level new old) /\ shQP (wrQP pp level new old).
  Proof.
    intros HL [L1 L2]. split; [split|split]; cbn [wrQP qpQ qpP].
    - apply wr_eq. lia.
    - intros k Hk. rewrite wr_row by lia. pose proof (levelP_nP k Hk). destruct (Nat.leb_spec k (levelP pp)); [reflexivity|lia].
    - rewrite wr_length. exact L1.
    - rewrite wr_length. exact L2.
  Qed.
  Lemma eqQP_trans level a b c : eqQP level a b -> eqQP level b c -> eqQP level a c.
  Proof. intros [H K] [H' K']. split; [intros j Hj; rewrite H, H' by exact Hj; reflexivity|intros k Hk; rewrite K, K' by exact Hk; reflexivity]. Qed.
  Lemma eqQ_trans level a b c : eqQ level a b -> eqQ level b c -> eqQ level a c.
  Proof. intros H H' j Hj. rewrite H, H' by exact Hj. reflexivity. Qed.
  Lemma eqQP_sym level a b : eqQP level a b -> eqQP level b a.
  Proof. intros [H K]. split; [intros j Hj; symmetry; apply H; exact Hj|intros k Hk; symmetry; apply K; exact Hk]. Qed.

  (** *** buffers of digits *)
  Lemma beta_max level : (level < nQ)%nat -> (beta pp level <= beta pp (maxLevel pp))%nat.
  Proof. intros H. apply (beta_mono2 pp WF); unfold maxLevel; pose proof (wf_Qpos _ _ WF); lia. Qed.
  Lemma idx_in (s : swk N) i : (i < length s)%nat -> exists d, idx s i = Ok d /\ In d s.
  Proof. intros H. unfold idx. destruct (nth_error s i) as [d|] eqn:E; [exists d; split; [reflexivity|apply (nth_error_In _ _ E)]|apply nth_error_None in E; lia]. Qed.
  Lemma idx_app1 {A} (a b : list A) i : (i < length a)%nat -> idx (a ++ b) i = idx a i.
  Proof. intros H. unfold idx. rewrite nth_error_app1 by exact H. reflexivity. Qed.
  Lemma In_skipn {A} (l : list A) n x : In x (skipn n l) -> In x l.
  Proof. intros H. rewrite <- (firstn_skipn n l). apply in_or_app. right. exact H. Qed.
  Lemma updPre_sim level (F : nat -> res (polyQP N)) (G : nat -> polyQP N -> res (polyQP N)) s : (level < nQ)%nat -> shS s ->
    (forall i o, (i < beta pp level)%nat -> idx s i = Ok o -> shQP o -> rsim (fun a b => eqQP level a b /\ shQP b) (F i) (G i o)) ->
    rsim (fun new s' => length new = beta pp level /\ shS s' /\ drel level new s') (rmapM F (seq 0 (beta pp level))) (updPre (beta pp level) G s).
  Proof.
    intros HL [LS SS] H. unfold updPre. pose proof (beta_max level HL) as BM.
    assert (K : rsim (Forall2 (fun a b => eqQP level a b /\ shQP b)) (rmapM F (seq 0 (beta pp level))) (rmapM (fun i => o <- idx s i ;; G i o) (seq 0 (beta pp level)))).
    { apply rsim_mapM. intros i Hi. apply in_seq in Hi. destruct (idx_in s i ltac:(lia)) as (d & E & I). rewrite E. cbn [rbind]. apply H; [lia|exact E|apply SS; exact I]. }
    destruct (rmapM F (seq 0 (beta pp level))) as [new|] eqn:EF, (rmapM (fun i => o <- idx s i ;; G i o) (seq 0 (beta pp level))) as [new'|] eqn:EG; cbn [rsim rbind] in K |- *; trivial; try contradiction.
    apply (rmapM_len) in EF. rewrite seq_length in EF. pose proof (Forall2_len _ _ _ K) as FL. split; [exact EF|]. split; [split|].
    - rewrite app_length, skipn_length. lia.
    - intros d Hd. apply in_app_or in Hd as [Hd|Hd]; [|apply SS; apply (In_skipn _ _ _ Hd)].
      clear - K Hd. induction K as [|a b l l' [_ X] _ IH]; [destruct Hd|]. destruct Hd as [<-|Hd]; [exact X|apply IH; exact Hd].
    - intros i Hi. rewrite idx_app1 by lia. rewrite (idx_nth new i (QP nil nil)) by lia. rewrite (idx_nth new' i (QP nil nil)) by lia. cbn [rsim].
      apply (Forall2_nth _ _ _ i (QP nil nil) (QP nil nil) K). lia.
  Qed.

  (** *** decomposition *)
  Lemma das_ext level i (a b : list Z) : (level < nQ)%nat -> (i < beta pp level)%nat -> firstn (S level) a = firstn (S level) b ->
    DecomposeAndSplit (NewDecomposer (Qs pp) (Ps pp) (gam pp)) (Qs pp) (Ps pp) level (levelP pp) (alpha pp) i (gam pp) a =
    DecomposeAndSplit (NewDecomposer (Qs pp) (Ps pp) (gam pp)) (Qs pp) (Ps pp) level (levelP pp) (alpha pp) i (gam pp) b.
  Proof.
    intros HL Hi E. pose proof (beta_le pp WF level i HL Hi) as ST. pose proof (wf_alpha _ _ WF) as [A0 _].
    assert (X : forall n (l : list Z), firstn (S level) l = firstn (S level) l -> idx l (i * alpha pp) = idx (firstn (S level) l) (i * alpha pp) /\
      ((i * alpha pp + n <= S level)%nat -> firstn n (skipn (i * alpha pp) l) = firstn n (skipn (i * alpha pp) (firstn (S level) l)))).
    { intros n l _. split.
      - unfold idx. rewrite <- (firstn_skipn (S level) l) at 1. destruct (Nat.lt_ge_cases (i * alpha pp) (length (firstn (S level) l))) as [L|L].
        + rewrite nth_error_app1 by exact L. reflexivity.
        + assert (length l <= S level)%nat by (rewrite firstn_length in L; lia). rewrite skipn_all2, app_nil_r by lia. reflexivity.
      - intros Hn. rewrite skipn_firstn_comm, firstn_firstn. f_equal. lia. }
    unfold DecomposeAndSplit. rewrite decomp_lvl_blk by lia. destruct (Z.eqb_spec (Z.of_nat (blk_len (alpha pp) level i) - 2) (-1)) as [D|D].
    - rewrite (proj1 (X 0%nat a eq_refl)), (proj1 (X 0%nat b eq_refl)), E. reflexivity.
    - set (k := (Z.to_nat (Z.of_nat (blk_len (alpha pp) level i) - 2) + 2)%nat).
      assert (HK : (i * alpha pp + k <= S level)%nat).
      { unfold k. unfold blk_len in *. destruct (Nat.ltb_spec (alpha pp * (i + 1) - 1) level) as [L|L].
        - nia.
        - pose proof (Nat.div_mod level (alpha pp) ltac:(lia)) as DM. pose proof (Nat.mod_upper_bound level (alpha pp) ltac:(lia)).
          assert (level / alpha pp = i)%nat by (symmetry; apply (Nat.div_unique level (alpha pp) i (level - i * alpha pp)); nia). nia. }
      rewrite (proj2 (X k a eq_refl) HK), (proj2 (X k b eq_refl) HK), E. reflexivity.
  Qed.
  Lemma col_firstn (a b : list R) level x : (level < length a)%nat -> (level < length b)%nat -> eqQ level a b -> firstn (S level) (col a x) = firstn (S level) (col b x).
  Proof.
    intros LA LB H. apply (nth_ext _ _ 0 0).
    - rewrite !firstn_length. unfold col. rewrite !map_length. lia.
    - intros j Hj. rewrite firstn_length in Hj. unfold col in Hj. rewrite map_length in Hj. rewrite !nth_firstn by lia. rewrite !col_nth by lia. rewrite H by lia. reflexivity.
  Qed.
  Lemma colmap_ext n (F G : nat -> res (list Z)) : (forall x, (x < N)%nat -> F x = G x) -> colmap n F = (colmap n G : res (list R)).
  Proof.
    intros H. unfold colmap. replace (rmapM F (seq 0 N)) with (rmapM G (seq 0 N)); [reflexivity|].
    assert (K : forall l, (forall x, In x l -> (x < N)%nat) -> rmapM G l = rmapM F l).
    { induction l as [|x l IH]; intros L; cbn [rmapM]; [reflexivity|]. rewrite H by (apply L; left; reflexivity). rewrite IH by (intros; apply L; right; assumption). reflexivity. }
    apply K. intros x Hx. apply in_seq in Hx. lia.
  Qed.
  Lemma dsn_ext level i (a b : list R) : (level < nQ)%nat -> (i < beta pp level)%nat -> ((length a <=? level) = (length b <=? level))%nat -> eqQ level a b ->
    DecomposeSingleNTT pp level i a = DecomposeSingleNTT pp level i b.
  Proof.
    intros HL Hi LE H. unfold DecomposeSingleNTT. rewrite <- LE. destruct (Nat.leb_spec (length a) level) as [L|L]; [reflexivity|].
    symmetry in LE. apply Nat.leb_gt in LE. rewrite (colmap_ext _ _ (fun x => '(oq, op) <- DecomposeAndSplit (NewDecomposer (Qs pp) (Ps pp) (gam pp)) (Qs pp) (Ps pp) level (levelP pp) (alpha pp) i (gam pp) (col b x) ;; Ok (oq ++ op))); [reflexivity|].
    intros x _. rewrite (das_ext level i (col a x) (col b x)); trivial. apply col_firstn; trivial.
  Qed.

  (** a polynomial read by the local model and by the model with buffers *)
  Definition prel (level : nat) (a b : poly N) : Prop := pntt a = pntt b /\ (pntt a = false -> (length (prows a) <=? level) = (length (prows b) <=? level))%nat /\ eqQ level (prows a) (prows b).
  Lemma prel_refl level a : prel level a a. Proof. split; [reflexivity|]. split; [reflexivity|apply eqQ_refl]. Qed.
  Lemma setE_id (st : kst) : setE st (kP0 st) (kP1 st) (kInv st) = st. Proof. destruct st; reflexivity. Qed.

  Lemma invSt_ok level st a b : (level < nQ)%nat -> sh st -> prel level a b ->
    exists r bi, invSt pp level st b = (setE st (kP0 st) (kP1 st) r, bi) /\ length r = nQ /\
      ((length (inv_form pp level a) <=? level) = (length bi <=? level))%nat /\ eqQ level (inv_form pp level a) bi.
  Proof.
    intros HL (S1 & S2 & S3 & _) (F & L & E). unfold invSt, inv_form. rewrite <- F. destruct (pntt a).
    - exists (wr level (lvlQ1 pp level intt (prows b)) (kInv st)), (wr level (lvlQ1 pp level intt (prows b)) (kInv st)). split; [reflexivity|]. rewrite wr_length. split; [exact S3|].
      rewrite (lvlQ1_ext level intt _ _ E). split; [unfold lvlQ1; rewrite tab_length; destruct (Nat.leb_spec (S level) level), (Nat.leb_spec (length (kInv st)) level); trivial; lia|]. apply wr_eq. lia.
    - exists (kInv st), (prows b). rewrite setE_id. split; [reflexivity|]. split; [exact S3|]. split; [apply L; reflexivity|exact E].
  Qed.
  Lemma sh_setE st p0 p1 r : sh st -> shQP p0 -> shQP p1 -> length r = nQ -> sh (setE st p0 p1 r).
  Proof. unfold sh. cbn. tauto. Qed.

  Lemma DecSt_sim level st a b dst : (level < nQ)%nat -> sh st -> shS dst -> prel level a b ->
    rsim (fun ds '(st', ds') => (exists r, length r = nQ /\ st' = setE st (kP0 st) (kP1 st) r) /\ length ds = beta pp level /\ shS ds' /\ drel level ds ds') (Decompose pp level a) (DecSt pp level st b dst).
  Proof.
    intros HL SH SD PR. unfold DecSt, Decompose. destruct (invSt_ok level st a b HL SH PR) as (r & bi & E & Lr & LE & EQ). rewrite E.
    pose proof (updPre_sim level (fun i => DecomposeSingleNTT pp level i (inv_form pp level a)) (fun i o => DsnInto pp level i bi o) dst HL SD) as U.
    match type of U with ?X -> _ => assert (K : X) end.
    { intros i o Hi _ So. unfold DsnInto. rewrite <- (dsn_ext level i (inv_form pp level a) bi HL Hi LE EQ). destruct (DecomposeSingleNTT pp level i (inv_form pp level a)) as [d|]; cbn [rsim rbind]; [|exact I]. apply wrQP_eq; assumption. }
    specialize (U K). destruct (rmapM _ _) as [new|], (updPre _ _ _) as [s'|]; cbn [rsim rbind] in U |- *; trivial. destruct U as (U1 & U2 & U3). split; [exists r; split; [exact Lr|reflexivity]|]. tauto.
  Qed.

  (** *** external products *)
  Lemma fin_ok level st c : (level < nQ)%nat -> shQP (kP1 st) -> eqQP level c (kP1 st) ->
    rsim (fun e '(st', e') => e = e' /\ length e = S level /\ exists p1, shQP p1 /\ st' = setE st (kP0 st) p1 (kInv st)) (rescaleP pp level c) (finSt pp level st).
  Proof.
    intros HL S1 EQ. unfold rescaleP, finSt. cbv zeta. destruct (wrQP_eq level (lvl1 pp level intt (kP1 st)) (kP1 st) HL S1) as [[W1 W2] W3]. set (c1 := wrQP pp level (lvl1 pp level intt (kP1 st)) (kP1 st)) in *.
    rewrite (lvl1_ext level intt _ _ EQ). set (c' := lvl1 pp level intt (kP1 st)) in *.
    rewrite (colmap_ext (S level) (fun x => ModDownQPtoQ (Qs pp) (Ps pp) level (levelP pp) (col (qpQ c') x) (col (qpP c') x)) (fun x => ModDownQPtoQ (Qs pp) (Ps pp) level (levelP pp) (col (qpQ c1) x) (col (qpP c1) x))).
    - destruct (colmap _ _) as [e|] eqn:E; cbn [rsim rbind]; [|exact I]. split; [reflexivity|]. split; [|exists c1; split; [exact W3|reflexivity]].
      unfold colmap in E. destruct (rmapM _ _); cbn [rbind] in E; [|discriminate]. injection E as <-. apply tab_length.
    - intros x _. unfold ModDownQPtoQ. replace (col (qpP c') x) with (col (qpP c1) x).
      + destruct (ModUp _ _ _ _ _) as [pool|]; cbn [rbind]; [|reflexivity]. destruct (idx _ _) as [md|]; cbn [rbind]; [|reflexivity]. f_equal. apply map_ext_in. intros i Hi. apply in_seq in Hi. f_equal.
        destruct W3 as [L1 _]. rewrite !col_nth; [rewrite W1 by lia; reflexivity|lia|]. unfold c', lvl1, lvlQ1. cbn [qpQ]. rewrite tab_length. lia.
      + apply (nth_ext _ _ 0 0).
        * unfold col. rewrite !map_length. destruct W3 as [_ ->]. unfold c', lvl1. cbn [qpP]. rewrite tab_length. reflexivity.
        * intros k Hk. unfold col in Hk. rewrite map_length in Hk. destruct W3 as [_ L2]. rewrite !col_nth; [rewrite W2 by lia; reflexivity|unfold c', lvl1; cbn [qpP]; rewrite tab_length; lia|lia].
  Qed.
  Lemma mac_sim level i k k' d d' acc st : (level < nQ)%nat -> eqQP level k k' -> eqQP level d d' -> shQP (kP1 st) -> ((0 < i)%nat -> eqQP level acc (kP1 st)) ->
    exists p1, macSt pp level i k' d' st = setE st (kP0 st) p1 (kInv st) /\ shQP p1 /\ eqQP level (if (i =? 0)%nat then lvl2 pp level r_mont k d else lvl3 pp level r_mont_add k d acc) p1.
  Proof.
    intros HL K D S1 A. unfold macSt. eexists. split; [reflexivity|]. destruct (wrQP_eq level (if (i =? 0)%nat then lvl2 pp level r_mont k' d' else lvl3 pp level r_mont_add k' d' (kP1 st)) (kP1 st) HL S1) as [W1 W2].
    split; [exact W2|]. eapply eqQP_trans; [|exact W1]. destruct (Nat.eqb_spec i 0) as [_|NE].
    - rewrite (lvl2_ext level r_mont k k' d d' K D). apply eqQP_refl.
    - rewrite (lvl3_ext level r_mont_add k k' d d' acc (kP1 st) K D); [apply eqQP_refl|apply A; lia].
  Qed.
  Definition extPost (level : nat) (st : kst) (e : list R) (r : kst * list R) : Prop :=
    e = snd r /\ length e = S level /\ exists p0 p1 ri, shQP p0 /\ shQP p1 /\ length ri = nQ /\ fst r = setE st p0 p1 ri.
  Lemma ExtSt_sim level st a b bg bg' : (level < nQ)%nat -> sh st -> prel level a b -> drel level bg bg' ->
    rsim (extPost level st) (ExternalProduct pp level a bg) (ExtSt pp level st b bg').
  Proof.
    intros HL SH PR DR. unfold ExternalProduct, ExtSt, Decompose, mac_digits. destruct (invSt_ok level st a b HL SH PR) as (r & bi & E & Lr & LE & EQ). rewrite E. clear E.
    set (ai := inv_form pp level a) in *. set (st0 := setE st (kP0 st) (kP1 st) r).
    assert (G : forall n i acc p0 p1, (i + n <= beta pp level)%nat -> shQP p0 -> shQP p1 -> ((0 < i)%nat -> eqQP level acc p1) ->
      rsim (fun c st' => ((0 < i + n)%nat -> eqQP level c (kP1 st')) /\ exists q0 q1, shQP q0 /\ shQP q1 /\ st' = setE st q0 q1 r)
        (ds <- rmapM (fun i => DecomposeSingleNTT pp level i ai) (seq i n) ;;
         rfold (fun acc '(i, d) => k <- idx bg i ;; Ok (if (i =? 0)%nat then lvl2 pp level r_mont k d else lvl3 pp level r_mont_add k d acc)) (combine (seq i n) ds) acc)
        (rfold (fun st i => c0 <- DsnInto pp level i bi (kP0 st) ;; k <- idx bg' i ;; Ok (macSt pp level i k c0 (setE st c0 (kP1 st) (kInv st)))) (seq i n) (setE st p0 p1 r))).
    { induction n as [|n IH]; intros i acc p0 p1 Hn S0 S1 A; cbn [seq rmapM rfold rbind combine].
      - cbn [rsim]. split; [rewrite Nat.add_0_r; exact A|]. exists p0, p1. tauto.
      - unfold DsnInto at 1. rewrite <- (dsn_ext level i ai bi HL ltac:(lia) LE EQ). cbn [setE kP0 kP1 kInv]. destruct (DecomposeSingleNTT pp level i ai) as [d|]; cbn [rbind]; [|exact I].
        destruct (wrQP_eq level d p0 HL S0) as [W1 W2]. specialize (DR i ltac:(lia)). 
        destruct (idx bg i) as [k|] eqn:EB, (idx bg' i) as [k'|] eqn:EB'; cbn [rsim] in DR; try contradiction.
        + cbn [rbind]. set (st1 := setE (setE st p0 p1 r) (wrQP pp level d p0) p1 r).
          destruct (mac_sim level i k k' d (wrQP pp level d p0) acc st1 HL DR W1 S1 A) as (q1 & M1 & M2 & M3). rewrite M1. unfold st1 at 1. cbn [setE kP0 kP1 kInv].
          change (setE st1 (kP0 st1) q1 (kInv st1)) with (setE st (wrQP pp level d p0) q1 r).
          specialize (IH (S i) (if (i =? 0)%nat then lvl2 pp level r_mont k d else lvl3 pp level r_mont_add k d acc) (wrQP pp level d p0) q1 ltac:(lia) W2 M2 (fun _ => M3)).
          destruct (rmapM (fun i0 => DecomposeSingleNTT pp level i0 ai) (seq (S i) n)) as [ds|]; cbn [rbind combine rfold] in IH |- *.
          * rewrite EB. cbn [rbind]. eapply rsim_weak; [|exact IH]. intros c st' [X Y]. split; [intros _; apply X; lia|exact Y].
          * exact IH.
        + cbn [rbind]. destruct (rmapM (fun i0 => DecomposeSingleNTT pp level i0 ai) (seq (S i) n)) as [ds|]; cbn [rbind combine rfold]; [|exact I]. rewrite EB. cbn [rbind rsim]. exact I. }
    pose proof SH as (S0 & S1 & _). specialize (G (beta pp level) 0%nat (QP nil nil) (kP0 st) (kP1 st) ltac:(lia) S0 S1 ltac:(lia)). fold st0 in G.
    destruct (rmapM (fun i => DecomposeSingleNTT pp level i ai) (seq 0 (beta pp level))) as [ds|] eqn:ED; cbn [rbind] in G |- *.
    - pose proof (rmapM_len _ _ _ ED) as LD. rewrite seq_length in LD. rewrite LD.
      eapply rsim_bind; [exact G|]. intros c st' [X (q0 & q1 & Q0 & Q1 & ->)]. pose proof (beta_pos pp WF level HL).
      eapply rsim_weak; [|apply (fin_ok level (setE st q0 q1 r) c HL Q1 (X ltac:(lia)))]. intros e [st' e'] (-> & L & p1 & P1 & ->). split; [reflexivity|]. split; [exact L|]. exists q0, p1, r. cbn. tauto.
    - destruct (rfold _ (seq 0 (beta pp level)) st0); [destruct G|exact I].
  Qed.
  Lemma ExtHSt_sim level st ah ah' bg bg' : (level < nQ)%nat -> sh st -> drel level ah ah' -> drel level bg bg' ->
    rsim (extPost level st) (ExternalProductHoisted pp level ah bg) (ExtHSt pp level st ah' bg').
  Proof.
    intros HL SH DA DR. unfold ExternalProductHoisted, ExtHSt, mac_digits.
    assert (G : forall n i acc p1, (i + n <= beta pp level)%nat -> shQP p1 -> ((0 < i)%nat -> eqQP level acc p1) ->
      rsim (fun c st' => ((0 < i + n)%nat -> eqQP level c (kP1 st')) /\ exists q1, shQP q1 /\ st' = setE st (kP0 st) q1 (kInv st))
        (ds <- rmapM (fun i => idx ah i) (seq i n) ;;
         rfold (fun acc '(i, d) => k <- idx bg i ;; Ok (if (i =? 0)%nat then lvl2 pp level r_mont k d else lvl3 pp level r_mont_add k d acc)) (combine (seq i n) ds) acc)
        (rfold (fun st i => k <- idx bg' i ;; d <- idx ah' i ;; Ok (macSt pp level i k d st)) (seq i n) (setE st (kP0 st) p1 (kInv st)))).
    { induction n as [|n IH]; intros i acc p1 Hn S1 A; cbn [seq rmapM rfold rbind combine].
      - cbn [rsim]. split; [rewrite Nat.add_0_r; exact A|]. exists p1. tauto.
      - pose proof (DR i ltac:(lia)) as DRi. pose proof (DA i ltac:(lia)) as DAi.
        destruct (idx ah i) as [d|] eqn:EA, (idx ah' i) as [d'|] eqn:EA'; cbn [rsim] in DAi; try contradiction; cbn [rbind].
        + destruct (idx bg i) as [k|] eqn:EB, (idx bg' i) as [k'|] eqn:EB'; cbn [rsim] in DRi; try contradiction; cbn [rbind].
          * destruct (mac_sim level i k k' d d' acc (setE st (kP0 st) p1 (kInv st)) HL DRi DAi S1 A) as (q1 & M1 & M2 & M3). rewrite M1.
            change (setE (setE st (kP0 st) p1 (kInv st)) (kP0 (setE st (kP0 st) p1 (kInv st))) q1 (kInv (setE st (kP0 st) p1 (kInv st)))) with (setE st (kP0 st) q1 (kInv st)).
            specialize (IH (S i) (if (i =? 0)%nat then lvl2 pp level r_mont k d else lvl3 pp level r_mont_add k d acc) q1 ltac:(lia) M2 (fun _ => M3)).
            destruct (rmapM (fun i0 => idx ah i0) (seq (S i) n)) as [ds|]; cbn [rbind combine rfold] in IH |- *.
            -- rewrite EB. cbn [rbind]. eapply rsim_weak; [|exact IH]. intros c st' [X Y]. split; [intros _; apply X; lia|exact Y].
            -- exact IH.
          * destruct (rmapM (fun i0 => idx ah i0) (seq (S i) n)) as [ds|]; cbn [rbind combine rfold]; [|exact I]. rewrite EB. cbn [rbind rsim]. exact I.
        + destruct (idx bg' i); cbn [rbind]; exact I. }
    pose proof SH as (S0 & S1 & S2 & _). specialize (G (beta pp level) 0%nat (QP nil nil) (kP1 st) ltac:(lia) S1 ltac:(lia)). rewrite setE_id in G.
    destruct (rmapM (fun i => idx ah i) (seq 0 (beta pp level))) as [ds|] eqn:ED; cbn [rbind] in G |- *.
    - pose proof (rmapM_len _ _ _ ED) as LD. rewrite seq_length in LD. rewrite LD.
      eapply rsim_bind; [exact G|]. intros c st' [X (q1 & Q1 & ->)]. pose proof (beta_pos pp WF level HL).
      eapply rsim_weak; [|apply (fin_ok level (setE st (kP0 st) q1 (kInv st)) c HL Q1 (X ltac:(lia)))]. intros e [st' e'] (-> & L & p1 & P1 & ->). split; [reflexivity|]. split; [exact L|]. exists (kP0 st), p1, (kInv st). cbn. tauto.
    - destruct (rfold _ (seq 0 (beta pp level)) st); [destruct G|exact I].
  Qed.

  (** *** reading components and digits *)
  Definition hrel (level : nat) (l : list string) (h h' : option (hoisted N)) : Prop :=
    match h, h' with
    | None, None => True
    | Some m, Some m' => forall id, In id l -> rsim (drel level) (hget m id) (hget m' id)
    | _, _ => False
    end.
  Lemma hrel_sub level l l' h h' : (forall x, In x l' -> In x l) -> hrel level l h h' -> hrel level l' h h'.
  Proof. unfold hrel. destruct h, h'; auto. Qed.
  Lemma ExtOpSt_sim level st l h h' (op : ct) id key key' : (level < nQ)%nat -> sh st -> hrel level l h h' -> In id l -> drel level key key' ->
    rsim (extPost level st) (ExtOp pp level h op id key) (ExtOpSt pp level st h' op id key').
  Proof.
    intros HL SH HR HI DR. unfold ExtOp, ExtOpSt, hrel in *. destruct h as [m|], h' as [m'|]; try contradiction.
    - eapply rsim_bind; [apply HR; exact HI|]. intros d d' D. apply ExtHSt_sim; assumption.
    - apply rsim_eq. intros p _. apply ExtSt_sim; trivial. apply prel_refl.
  Qed.
  Lemma extPost_sh level st e r : sh st -> extPost level st e r -> sh (fst r).
  Proof. intros SH (_ & _ & p0 & p1 & ri & S0 & S1 & L & ->). apply sh_setE; assumption. Qed.
  (** the vectors x and y survive *)
  Definition keep (st0 st : kst) : Prop := sh st /\ ks1 st = ks1 st0 /\ ks2 st = ks2 st0.
  Lemma keep_ext level st0 st e r : keep st0 st -> extPost level st e r -> keep st0 (fst r) /\ e = snd r /\ length e = S level /\ kq0 (fst r) = kq0 st /\ kq1 (fst r) = kq1 st /\ ks3 (fst r) = ks3 st.
  Proof. intros (SH & K1 & K2) E. pose proof (extPost_sh _ _ _ _ SH E) as SH'. destruct E as (-> & L & p0 & p1 & ri & S0 & S1 & LR & E). rewrite E in *. cbn. unfold keep. cbn. tauto. Qed.
  Lemma shq_wrP level new q : shq q -> shq (wrP level new q). Proof. intros [L F]. split; [cbn; rewrite wr_length; exact L|exact F]. Qed.
  Lemma keep_q0 st0 st q : keep st0 st -> shq q -> keep st0 (setq0 st q). Proof. unfold keep, sh. cbn. tauto. Qed.
  Lemma keep_q1 st0 st q : keep st0 st -> shq q -> keep st0 (setq1 st q). Proof. unfold keep, sh. cbn. tauto. Qed.
  Lemma keep_q2 st0 st q : keep st0 st -> shq q -> keep st0 (setq2 st q). Proof. unfold keep, sh. cbn. tauto. Qed.
  Lemma keep_s3 st0 st q : keep st0 st -> shS q -> keep st0 (sets3 st q). Proof. unfold keep, sh. cbn. tauto. Qed.
  Lemma keep_sh st0 st : keep st0 st -> sh st. Proof. intros [H _]. exact H. Qed.
  Lemma keep_shq st0 st : keep st0 st -> shq (kq0 st) /\ shq (kq1 st) /\ shq (kq2 st) /\ shS (ks3 st).
  Proof. unfold keep, sh. tauto. Qed.
  Lemma wrP_eq level e q : (level < nQ)%nat -> shq q -> eqQ level e (prows (wrP level e q)).
  Proof. intros HL [L _]. cbn. apply wr_eq. lia. Qed.
  Lemma wrP_prel level e q : (level < nQ)%nat -> shq q -> length e = S level -> prel level (Pol e false) (wrP level e q).
  Proof.
    intros HL SQ LE. pose proof (wrP_eq level e q HL SQ) as W. destruct SQ as [L F]. split; [cbn; symmetry; exact F|]. split; [|exact W].
    intros _. cbn. rewrite wr_length, L, LE. destruct (Nat.leb_spec (S level) level), (Nat.leb_spec nQ level); trivial; lia.
  Qed.

  (** *** the vectors x and y *)
  Lemma digSt_sim level st l h h' (op : ct) id : (level < nQ)%nat -> sh st -> hrel level l h h' -> In id l ->
    rsim (fun ds '(st', ds') => (exists r d, st' = sets3 (setE st (kP0 st) (kP1 st) r) d) /\ sh st' /\ drel level ds ds') (hdig pp level h op id) (digSt pp level st h' op id).
  Proof.
    intros HL SH HR HI. unfold hdig, digSt, hrel in *. destruct h as [m|], h' as [m'|]; try contradiction.
    - specialize (HR id HI). destruct (hget m id) as [d|], (hget m' id) as [d'|]; cbn [rsim rbind] in HR |- *; trivial. split; [|tauto]. exists (kInv st), (ks3 st). destruct st; reflexivity.
    - apply rsim_eq. intros p _. assert (S3 : shS (ks3 st)) by (unfold sh in SH; tauto). pose proof (DecSt_sim level st p p (ks3 st) HL SH S3 (prel_refl _ _)) as D.
      destruct (Decompose pp level p) as [ds|], (DecSt pp level st p (ks3 st)) as [[st' ds']|]; cbn [rsim rbind] in D |- *; trivial. destruct D as ((r & Lr & ->) & _ & S' & DR).
      split; [exists r, ds'; reflexivity|]. split; [|exact DR]. unfold sh in SH |- *. cbn. tauto.
  Qed.
  Lemma rmapM_map {A B} (f : A -> B) (l : list A) : rmapM (fun i => o <- idx l i ;; Ok (f o)) (seq 0 (length l)) = Ok (map f l).
  Proof.
    assert (G : forall (p l : list A), rmapM (fun i => o <- idx (p ++ l) i ;; Ok (f o)) (seq (length p) (length l)) = Ok (map f l)).
    { intros p l0. revert p. induction l0 as [|x l0 IH]; intros p; cbn [length seq rmapM map]; [reflexivity|].
      unfold idx at 1. rewrite nth_error_app2, Nat.sub_diag by lia. cbn [nth_error rbind]. specialize (IH (p ++ [x])). rewrite <- app_assoc in IH. cbn [app] in IH. rewrite app_length in IH. cbn [length] in IH.
      replace (length p + 1)%nat with (S (length p)) in IH by lia. rewrite IH. reflexivity. }
    apply (G nil l).
  Qed.
  Lemma vecSt_sim level (get oth : kst -> swk N) (set : kst -> swk N -> kst) sel h h' (op : ct) rs l st acc : (level < nQ)%nat -> sh st ->
    (forall st x, get (set st x) = x) -> (forall st x, oth (set st x) = oth st) -> (forall st x, sh st -> shS x -> sh (set st x)) -> (forall st, sh st -> shS (get st)) ->
    (forall st p0 p1 r d, get (sets3 (setE st p0 p1 r) d) = get st) -> (forall st p0 p1 r d, oth (sets3 (setE st p0 p1 r) d) = oth st) ->
    hrel level l h h' -> length acc = beta pp level -> drel level acc (get st) ->
    rsim (fun x st' => sh st' /\ oth st' = oth st /\ drel level x (get st'))
      (x <- rfold (fun acc id => ds <- hdig pp level h op id ;; k <- rlk_get rs id ;; macAdd pp level (sel k) ds acc) l acc ;; Ok (map (lvl1 pp level r_mform) x))
      (vecSt pp level get set sel h' op rs l st).
  Proof.
    intros HL SH GS OS SS SG GE OE HR LA DA. unfold vecSt.
    eapply (rsim_bind (fun x st' => sh st' /\ oth st' = oth st /\ length x = beta pp level /\ drel level x (get st'))).
    - apply rsim_fold; [|tauto]. clear acc LA DA. intros acc s id HI (S' & O' & LA & DA).
      eapply rsim_bind; [apply (digSt_sim level s l h h' op id HL S' HR HI)|]. intros ds [s1 ds'] ((r & d & ->) & S1 & DD).
      apply rsim_eq. intros k _. unfold macAdd.
      match goal with |- rsim _ (rmapM ?F _) (rbind (updPre _ ?G _) _) => pose proof (updPre_sim level F G (get (sets3 (setE s (kP0 s) (kP1 s) r) d)) HL (SG _ S1)) as U end.
      match type of U with ?X -> _ => assert (K : X) end.
      { intros i o Hi EO So. rewrite GE in EO. specialize (DA i Hi). rewrite EO in DA. specialize (DD i Hi).
        destruct (idx (sel k) i) as [kk|]; cbn [rbind]; [|exact I].
        destruct (idx ds i) as [x|], (idx ds' i) as [x'|]; cbn [rsim rbind] in DD |- *; trivial; try contradiction.
        destruct (idx acc i) as [z|]; cbn [rsim rbind] in DA |- *; [|contradiction].
        destruct (wrQP_eq level (lvl3 pp level r_mont_add kk x' o) o HL So) as [W1 W2]. split; [|exact W2].
        rewrite (lvl3_ext level r_mont_add kk kk x x' z o (eqQP_refl _ _) DD DA). exact W1. }
      specialize (U K). clear K.
      destruct (rmapM _ _) as [new|], (updPre _ _ _) as [s'|]; cbn [rsim rbind] in U |- *; trivial. destruct U as (U1 & U2 & U3).
      split; [apply SS; assumption|]. rewrite OS, OE, GS. tauto.
    - clear acc LA DA. intros acc s (S1 & O1 & LA & DA).
      pose proof (updPre_sim level (fun i => o <- idx acc i ;; Ok (lvl1 pp level r_mform o)) (fun _ o => Ok (wrQP pp level (lvl1 pp level r_mform o) o)) (get s) HL (SG _ S1)) as U.
      match type of U with ?X -> _ => assert (K : X) end.
      { intros i o Hi EO So. specialize (DA i Hi). rewrite EO in DA. destruct (idx acc i) as [z|]; cbn [rsim rbind] in DA |- *; [|contradiction].
        destruct (wrQP_eq level (lvl1 pp level r_mform o) o HL So) as [W1 W2]. split; [|exact W2]. rewrite (lvl1_ext level r_mform z o DA). exact W1. }
      specialize (U K). replace (rmapM (fun i : nat => o <- idx acc i ;; Ok (lvl1 pp level r_mform o)) (seq 0 (beta pp level))) with (Ok (map (lvl1 pp level r_mform) acc)) in U by (rewrite <- LA; symmetry; apply rmapM_map). destruct (updPre _ _ _) as [s'|]; cbn [rsim rbind] in U |- *; trivial. destruct U as (U1 & U2 & U3).
      split; [apply SS; assumption|]. rewrite OS, GS. tauto.
  Qed.
  Lemma drel_get level a b i : drel level a b -> (i < beta pp level)%nat -> rsim (eqQP level) (idx a i) (idx b i). Proof. intros H. apply H. Qed.
  Lemma zeroSt_ok level s : (level < nQ)%nat -> shS s -> exists s', zeroSt pp level s = Ok s' /\ shS s' /\ drel level (tab (beta pp level) (fun _ => zeroQP pp level)) s'.
  Proof.
    intros HL SS. unfold zeroSt.
    pose proof (updPre_sim level (fun _ => Ok (zeroQP pp level)) (fun _ o => Ok (QP (tab (length (qpQ o)) (fun _ => R0)) (tab (length (qpP o)) (fun _ => R0)))) s HL SS) as U.
    match type of U with ?X -> _ => assert (K : X) end.
    { intros i o Hi _ [L1 L2]. cbn [rsim]. split; [split|split]; cbn [qpQ qpP zeroQP]; try (rewrite tab_length; assumption).
      - intros j Hj. unfold row. rewrite !nth_tab by lia. reflexivity.
      - intros k Hk. unfold row. rewrite !nth_tab by lia. reflexivity. }
    specialize (U K).
    assert (E : rmapM (fun _ : nat => Ok (zeroQP pp level : polyQP N)) (seq 0 (beta pp level)) = Ok (tab (beta pp level) (fun _ => zeroQP pp level))).
    { unfold tab. generalize (seq 0 (beta pp level)). induction l as [|x l IH]; cbn [rmapM map]; [reflexivity|]. rewrite IH. reflexivity. }
    rewrite E in U. destruct (updPre _ _ _) as [s'|]; cbn [rsim] in U; [|contradiction]. exists s'. tauto.
  Qed.

  (** *** the stages of a multiplication *)
  Definition pst (st0 : kst) (c : ct) (r : kst * ct) : Prop := c = snd r /\ keep st0 (fst r).
  Lemma prodSt_sim level o (op0 op1 : ct) ids0 ids1 st out : (level < nQ)%nat -> sh st ->
    rsim (pst st) (prodStage pp level o op0 op1 ids0 ids1 out) (prodSt pp level o op0 op1 ids0 ids1 st out).
  Proof.
    intros HL SH. unfold prodStage, prodSt. assert (K0 : keep st st) by (unfold keep; tauto).
    apply rsim_eq. intros a0 _. destruct (keep_shq _ _ K0) as (Q0 & Q1 & Q2 & _).
    set (A := lvlQ1 pp level ntt (prows a0)). set (st1 := setq0 st (wrP level A (kq0 st))).
    assert (K1 : keep st st1) by (apply keep_q0; [exact K0|apply shq_wrP; exact Q0]).
    apply rsim_eq. intros b0 _. set (B := lvlQ1 pp level ntt (prows b0)). set (st2 := setq1 st1 (wrP level B (kq1 st1))).
    assert (K2 : keep st st2) by (apply keep_q1; [exact K1|apply shq_wrP; exact Q1]). cbv zeta.
    set (st3 := setq0 st2 (wrP level (lvlQ1 pp level r_mform (prows (kq0 st2))) (kq0 st2))).
    destruct (keep_shq _ _ K2) as (Q0' & Q1' & Q2' & _).
    assert (K3 : keep st st3) by (apply keep_q0; [exact K2|apply shq_wrP; exact Q0']).
    set (aN := lvlQ1 pp level r_mform A).
    assert (E0 : eqQ level aN (prows (kq0 st3))).
    { replace aN with (lvlQ1 pp level r_mform (prows (kq0 st2))); [apply (wrP_eq level _ (kq0 st2) HL Q0')|]. unfold aN. apply lvlQ1_ext. intros j Hj. symmetry. apply (wrP_eq level A (kq0 st) HL Q0 j Hj). }
    assert (E1 : eqQ level B (prows (kq1 st3))) by (apply (wrP_eq level B (kq1 st1) HL Q1)).
    rewrite (lvlQ2_ext level r_mont aN (prows (kq0 st3)) B (prows (kq1 st3)) E0 E1).
    apply rsim_eq. intros out1 _.
    set (bM := lvlQ1 pp level r_mform B). set (st4 := setq1 st3 (wrP level (lvlQ1 pp level r_mform (prows (kq1 st3))) (kq1 st3))).
    destruct (keep_shq _ _ K3) as (Q0'' & Q1'' & Q2'' & _).
    assert (K4 : keep st st4) by (apply keep_q1; [exact K3|apply shq_wrP; exact Q1'']).
    assert (E1' : eqQ level bM (prows (kq1 st4))).
    { unfold bM. rewrite (lvlQ1_ext level r_mform _ _ E1). apply (wrP_eq level _ (kq1 st3) HL Q1''). }
    assert (E0' : eqQ level aN (prows (kq0 st4))) by exact E0.
    set (I := fun (c : ct) (r : kst * ct) => c = snd r /\ keep st (fst r) /\ eqQ level bM (prows (kq1 (fst r))) /\ eqQ level aN (prows (kq0 (fst r)))).
    eapply (rsim_bind I).
    { apply rsim_fold; [|unfold I; cbn [fst snd]; tauto]. intros c [s c'] id _ (EC & K & B1 & A1). cbn [fst snd] in EC, K, A1, B1. subst c'.
      apply rsim_eq. intros p _. cbv zeta. destruct (keep_shq _ _ K) as (R0' & R1 & R2 & _).
      set (P := lvlQ1 pp level ntt (prows p)). rewrite (lvlQ2_ext level r_mont bM (prows (kq1 (setq2 s (wrP level P (kq2 s))))) P (prows (kq2 (setq2 s (wrP level P (kq2 s)))))); [|exact B1|apply (wrP_eq level P (kq2 s) HL R2)].
      destruct (cwr c id _) as [c'|]; cbn [rsim rbind]; trivial. unfold I. cbn [fst snd]. split; [reflexivity|]. split; [apply keep_q2; [exact K|apply shq_wrP; exact R2]|]. split; assumption. }
    intros c [s c'] (EC & K & B1 & A1). cbn [fst snd] in EC, K, A1, B1. subst c'. cbv beta iota.
    eapply (rsim_bind I).
    { apply rsim_fold; [|unfold I; cbn [fst snd]; tauto]. clear s K B1 A1. clear c. intros c [s c'] id _ (EC & K & B1 & A1). cbn [fst snd] in EC, K, A1, B1. subst c'.
      apply rsim_eq. intros p _. cbv zeta. destruct (keep_shq _ _ K) as (R0' & R1 & R2 & _).
      set (P := lvlQ1 pp level ntt (prows p)). assert (EP : eqQ level P (prows (kq2 (setq2 s (wrP level P (kq2 s)))))) by apply (wrP_eq level P (kq2 s) HL R2).
      assert (KK : keep st (setq2 s (wrP level P (kq2 s)))) by (apply keep_q2; [exact K|apply shq_wrP; exact R2]).
      rewrite (lvlQ2_ext level r_mont aN (prows (kq0 (setq2 s (wrP level P (kq2 s))))) P (prows (kq2 (setq2 s (wrP level P (kq2 s)))))) by assumption.
      set (s' := setq2 s (wrP level P (kq2 s))) in *.
      match goal with |- rsim _ ?m (rbind ?m' _) => replace m' with m end.
      - destruct (if is_has ids0 id then _ else _) as [c'|]; cbn [rsim rbind]; trivial. unfold I. cbn [fst snd]. split; [reflexivity|]. split; [exact KK|]. split; assumption.
      - destruct (is_has ids0 id); [|reflexivity]. destruct (cget c id) as [q|]; cbn [rbind]; [|reflexivity].
        rewrite (lvlQ3_ext level r_mont_add aN (prows (kq0 s')) P (prows (kq2 s')) (prows q) (prows q) A1 EP (eqQ_refl _ _)). reflexivity. }
    clear c s K B1 A1. intros c [s c'] (EC & K & B1 & A1). cbn [fst snd] in EC, K, A1, B1. subst c'. cbv beta iota.
    destruct (rfold _ _ c) as [c'|]; cbn [rsim rbind]; trivial. split; [reflexivity|exact K].
  Qed.
  Lemma xSt_sim level o l h1 h1' (op1 : ct) ids1 x st0 st out : (level < nQ)%nat -> keep st0 st -> hrel level l h1 h1' -> (forall id, In id (o 7%nat (keys ids1)) -> In id l) -> drel level x (ks1 st0) ->
    rsim (pst st0) (xStage pp level o h1 op1 ids1 x out) (xSt pp level o h1' op1 ids1 st out).
  Proof.
    intros HL K HR HI DX. unfold xStage, xSt. apply rsim_fold; [|split; [reflexivity|exact K]]. clear st K. intros c [st c'] id Hid [EC K]. cbn [fst snd] in EC, K. subst c'.
    eapply rsim_bind; [apply (ExtOpSt_sim level st l h1 h1' op1 id x (ks1 st) HL (keep_sh _ _ K) HR (HI _ Hid)); destruct K as (_ & -> & _); exact DX|].
    intros e [s e'] EP. destruct (keep_ext level st0 st e _ K EP) as (K' & E & L & _). cbn [fst snd] in K', E. subst e'. cbv zeta beta iota.
    destruct (keep_shq _ _ K') as (Q0 & _). apply rsim_eq. intros q _.
    rewrite (lvlQ2_ext level r_add (prows q) (prows q) e (prows (kq0 (setq0 s (wrP level e (kq0 s)))))); [|apply eqQ_refl|apply (wrP_eq level e (kq0 s) HL Q0)].
    destruct (cwr c id _) as [c'|]; cbn [rsim rbind]; trivial. split; [reflexivity|]. cbn [fst]. apply keep_q0; [exact K'|apply shq_wrP; exact Q0].
  Qed.
  Lemma vSt_sim level o crs rs (op0 : ct) ids0 y st0 st out : (level < nQ)%nat -> keep st0 st -> drel level y (ks2 st0) ->
    rsim (pst st0) (vStage pp level o crs rs op0 ids0 y out) (vSt pp level o crs rs op0 ids0 st out).
  Proof.
    intros HL K DY. unfold vStage, vSt. apply rsim_fold; [|split; [reflexivity|exact K]]. clear st K. intros c [st c'] id Hid [EC K]. cbn [fst snd] in EC, K. subst c'.
    apply rsim_eq. intros k _.
    eapply rsim_bind; [apply (ExtOpSt_sim level st [id] None None op0 id y (ks2 st) HL (keep_sh _ _ K) I (or_introl eq_refl)); destruct K as (_ & _ & ->); exact DY|].
    intros w [s w'] EP. destruct (keep_ext level st0 st w _ K EP) as (K1 & E & L & _). cbn [fst snd] in K1, E. subst w'. cbv zeta beta iota. clear EP.
    destruct (keep_shq _ _ K1) as (Q0 & _). set (s1 := setq0 s (wrP level w (kq0 s))).
    assert (K2 : keep st0 s1) by (apply keep_q0; [exact K1|apply shq_wrP; exact Q0]).
    assert (PW : prel level (Pol w false) (kq0 s1)) by (apply (wrP_prel level w (kq0 s) HL Q0 L)).
    eapply rsim_bind; [apply (ExtSt_sim level s1 _ _ (rlk_v k) (rlk_v k) HL (keep_sh _ _ K2) PW (drel_refl _ _))|].
    intros ev [s2 ev'] EP. destruct (keep_ext level st0 s1 ev _ K2 EP) as (K3 & E & L' & F0 & F1 & _). cbn [fst snd] in K3, E, F0, F1. subst ev'. cbv zeta beta iota. clear EP.
    destruct (keep_shq _ _ K3) as (_ & Q1 & _). set (s3 := setq1 s2 (wrP level ev (kq1 s2))).
    assert (K4 : keep st0 s3) by (apply keep_q1; [exact K3|apply shq_wrP; exact Q1]).
    apply rsim_eq. intros q0 _.
    rewrite (lvlQ2_ext level r_add (prows q0) (prows q0) ev (prows (kq1 s3)) (eqQ_refl _ _) (wrP_eq level ev (kq1 s2) HL Q1)).
    apply rsim_eq. intros c1 _. apply rsim_eq. intros u _.
    assert (PW' : prel level (Pol w false) (kq0 s3)) by (change (kq0 s3) with (kq0 s2); rewrite F0; exact PW).
    eapply rsim_bind; [apply (ExtSt_sim level s3 _ _ u u HL (keep_sh _ _ K4) PW' (drel_refl _ _))|].
    intros eu [s4 eu'] EP. destruct (keep_ext level st0 s3 eu _ K4 EP) as (K5 & E & _). cbn [fst snd] in K5, E. subst eu'. cbv zeta beta iota. clear EP.
    destruct (keep_shq _ _ K5) as (_ & _ & Q2 & _). apply rsim_eq. intros q _.
    rewrite (lvlQ2_ext level r_add (prows q) (prows q) eu (prows (kq2 (setq2 s4 (wrP level eu (kq2 s4))))) (eqQ_refl _ _) (wrP_eq level eu (kq2 s4) HL Q2)).
    destruct (cwr c1 id _) as [c2|]; cbn [rsim rbind]; trivial. split; [reflexivity|]. cbn [fst]. apply keep_q2; [exact K5|apply shq_wrP; exact Q2].
  Qed.
  Lemma vhSt_sim level o l crs rs h0 h0' (op0 : ct) ids0 y st0 st out : (level < nQ)%nat -> keep st0 st -> hrel level l h0 h0' -> (forall id, In id (o 8%nat (keys ids0)) -> In id l) -> drel level y (ks2 st0) ->
    rsim (pst st0) (vStageH pp level o crs rs h0 op0 ids0 y out) (vhSt pp level o crs rs h0' op0 ids0 st out).
  Proof.
    intros HL K HR HI DY. unfold vStageH, vhSt. apply rsim_fold; [|split; [reflexivity|exact K]]. clear st K. intros c [st c'] id Hid [EC K]. cbn [fst snd] in EC, K. subst c'.
    apply rsim_eq. intros k _.
    eapply rsim_bind; [apply (ExtOpSt_sim level st l h0 h0' op0 id y (ks2 st) HL (keep_sh _ _ K) HR (HI _ Hid)); destruct K as (_ & _ & ->); exact DY|].
    intros w [s w'] EP. destruct (keep_ext level st0 st w _ K EP) as (K1 & E & L & _). cbn [fst snd] in K1, E. subst w'. cbv zeta beta iota. clear EP.
    destruct (keep_shq _ _ K1) as (Q0 & _). set (s1 := setq0 s (wrP level w (kq0 s))).
    assert (K2 : keep st0 s1) by (apply keep_q0; [exact K1|apply shq_wrP; exact Q0]).
    assert (PW : prel level (Pol w false) (kq0 s1)) by (apply (wrP_prel level w (kq0 s) HL Q0 L)).
    destruct (keep_shq _ _ K2) as (_ & _ & _ & S3).
    eapply rsim_bind; [apply (DecSt_sim level s1 _ _ (ks3 s1) HL (keep_sh _ _ K2) S3 PW)|].
    intros dw [s1' dw'] ((r & Lr & ->) & _ & SD & DD). cbv zeta beta iota. set (s1' := sets3 (setE s1 (kP0 s1) (kP1 s1) r) dw').
    assert (K2' : keep st0 s1').
    { apply keep_s3; [|exact SD]. destruct K2 as (X & Y & Z). split; [|cbn; tauto]. unfold sh in X |- *. cbn in *. tauto. }
    eapply rsim_bind; [apply (ExtHSt_sim level s1' dw (ks3 s1') (rlk_v k) (rlk_v k) HL (keep_sh _ _ K2') DD (drel_refl _ _))|].
    intros ev [s2 ev'] EP. destruct (keep_ext level st0 s1' ev _ K2' EP) as (K3 & E & L' & F0 & F1 & F3). cbn [fst snd] in K3, E, F0, F1, F3. subst ev'. cbv zeta beta iota. clear EP.
    destruct (keep_shq _ _ K3) as (_ & Q1 & _). set (s3 := setq1 s2 (wrP level ev (kq1 s2))).
    assert (K4 : keep st0 s3) by (apply keep_q1; [exact K3|apply shq_wrP; exact Q1]).
    apply rsim_eq. intros q0 _.
    rewrite (lvlQ2_ext level r_add (prows q0) (prows q0) ev (prows (kq1 s3)) (eqQ_refl _ _) (wrP_eq level ev (kq1 s2) HL Q1)).
    apply rsim_eq. intros c1 _. apply rsim_eq. intros u _.
    assert (DD' : drel level dw (ks3 s3)) by (change (ks3 s3) with (ks3 s2); rewrite F3; exact DD).
    eapply rsim_bind; [apply (ExtHSt_sim level s3 dw (ks3 s3) u u HL (keep_sh _ _ K4) DD' (drel_refl _ _))|].
    intros eu [s4 eu'] EP. destruct (keep_ext level st0 s3 eu _ K4 EP) as (K5 & E & _). cbn [fst snd] in K5, E. subst eu'. cbv zeta beta iota. clear EP.
    destruct (keep_shq _ _ K5) as (_ & _ & Q2 & _). apply rsim_eq. intros q _.
    rewrite (lvlQ2_ext level r_add (prows q) (prows q) eu (prows (kq2 (setq2 s4 (wrP level eu (kq2 s4))))) (eqQ_refl _ _) (wrP_eq level eu (kq2 s4) HL Q2)).
    destruct (cwr c1 id _) as [c2|]; cbn [rsim rbind]; trivial. split; [reflexivity|]. cbn [fst]. apply keep_q2; [exact K5|apply shq_wrP; exact Q2].
  Qed.

  (** *** multiplication *)
  Definition fits (c : ct) : Prop := forall l, ctLevel c = Ok l -> (l < nQ)%nat.
  Definition same (c : ct) (r : kst * ct) : Prop := c = snd r /\ sh (fst r).
  Definition hrelP (c out : ct) (h h' : option (hoisted N)) : Prop := forall l, ctLevel out = Ok l -> hrel l (parties c) h h'.
  Lemma ids_parties o (c : ct) ids id n : order_ok o -> IDSetOf (o n) c = Ok ids -> In id (keys ids) -> In id (parties c).
  Proof.
    intros O E H. destruct (IDSetOf_ok (o n) c (fun l => O n l)) as (ids' & A & _ & B). rewrite E in A. injection A as <-. apply in_parties. apply B. unfold is_has. apply (mhas_In seq_dec). exact H.
  Qed.
  Lemma MulSt_sim hc o crs st (op0 op1 : ct) h0 h0' h1 h1' rs out : order_ok o -> sh st -> fits out -> hrelP op0 out h0 h0' -> hrelP op1 out h1 h1' -> (hc = false -> h0 = None /\ h1 = None) ->
    rsim same (if hc then MulAndRelinHoisted pp o crs op0 op1 h0 h1 rs out else MulAndRelin pp o crs op0 op1 rs out) (MulSt hc pp o crs st op0 op1 h0' h1' rs out).
  Proof.
    intros O SH FT R0 R1 HC.
    assert (EM : (if hc then MulAndRelinHoisted pp o crs op0 op1 h0 h1 rs out else MulAndRelin pp o crs op0 op1 rs out) =
      (level <- ctLevel out ;; l0 <- ctLevel op0 ;; if (l0 <? level)%nat then Panic else
       ids0 <- IDSetOf (o 0%nat) op0 ;; ids1 <- IDSetOf (o 1%nat) op1 ;;
       x <- genVec pp level rlk_d h0 op0 rs (o 2%nat (keys ids0)) ;; y <- genVec pp level rlk_b h1 op1 rs (o 3%nat (keys ids1)) ;;
       out <- prodStage pp level o op0 op1 ids0 ids1 out ;; out <- xStage pp level o h1 op1 ids1 x out ;;
       if hc then vStageH pp level o crs rs h0 op0 ids0 y out else vStage pp level o crs rs op0 ids0 y out)).
    { destruct hc; [reflexivity|]. destruct (HC eq_refl) as [-> ->]. reflexivity. }
    rewrite EM. clear EM. unfold MulSt.
    apply rsim_eq. intros level EL. pose proof (FT level EL) as HL. specialize (R0 level EL). specialize (R1 level EL).
    apply rsim_eq. intros l0 _. destruct (l0 <? level)%nat; [exact I|].
    apply rsim_eq. intros ids0 E0. apply rsim_eq. intros ids1 E1.
    assert (I0 : forall n id, In id (o n (keys ids0)) -> In id (parties op0)) by (intros n id H; apply (ids_parties o op0 ids0 id 0 O E0); apply (Permutation_in _ (O n _)); exact H).
    assert (I1 : forall n id, In id (o n (keys ids1)) -> In id (parties op1)) by (intros n id H; apply (ids_parties o op1 ids1 id 1 O E1); apply (Permutation_in _ (O n _)); exact H).
    assert (S1 : shS (ks1 st)) by (unfold sh in SH; tauto). assert (S2 : shS (ks2 st)) by (unfold sh in SH; tauto).
    destruct (zeroSt_ok level (ks1 st) HL S1) as (x0 & -> & X1 & X2). destruct (zeroSt_ok level (ks2 st) HL S2) as (y0 & -> & Y1 & Y2). cbn [rbind].
    assert (SH' : sh (sets2 (sets1 st x0) y0)) by (unfold sh in SH |- *; cbn; tauto). unfold genVec.
    eapply rsim_bind.
    { apply (vecSt_sim level ks1 ks2 sets1 rlk_d h0 h0' op0 rs (o 2%nat (keys ids0)) (sets2 (sets1 st x0) y0) (tab (beta pp level) (fun _ => zeroQP pp level)) HL SH'); try reflexivity.
      - intros s x A B. unfold sh in A |- *. cbn. tauto.
      - intros s A. unfold sh in A. tauto.
      - apply (hrel_sub level (parties op0)); [apply I0|exact R0].
      - apply tab_length.
      - exact X2. }
    intros x s (Ss & So & DX). cbn [sets2 ks2] in So.
    eapply rsim_bind.
    { apply (vecSt_sim level ks2 ks1 sets2 rlk_b h1 h1' op1 rs (o 3%nat (keys ids1)) s (tab (beta pp level) (fun _ => zeroQP pp level)) HL Ss); try reflexivity.
      - intros s' x' A B. unfold sh in A |- *. cbn. tauto.
      - intros s' A. unfold sh in A. tauto.
      - apply (hrel_sub level (parties op1)); [apply I1|exact R1].
      - apply tab_length.
      - rewrite So. exact Y2. }
    intros y s2 (Ss2 & So2 & DY).
    eapply rsim_bind; [apply (prodSt_sim level o op0 op1 ids0 ids1 s2 out HL Ss2)|]. intros c [s3 c'] [EC K]. cbn [fst snd] in EC, K. subst c'. cbv beta iota.
    eapply rsim_bind; [apply (xSt_sim level o (parties op1) h1 h1' op1 ids1 x s2 s3 c HL K R1 (I1 7%nat)); rewrite So2; exact DX|]. clear c K. intros c [s4 c'] [EC K]. cbn [fst snd] in EC, K. subst c'. cbv beta iota.
    assert (W : forall m n, rsim (pst s2) m n -> rsim same m n) by (intros m n; apply rsim_weak; intros a b [H1 [H2 _]]; split; assumption).
    apply W. destruct hc.
    - apply (vhSt_sim level o (parties op0)); trivial. apply I0.
    - apply vSt_sim; trivial.
  Qed.

  (** *** rotation *)
  Lemma perm_row_pool g h m (a : R) pool pool' : 0 <= g < 2 * Z.of_nat N -> (2 * Z.of_nat N | g * h - 1) -> length pool = N -> length pool' = N -> perm_row g m a pool' = perm_row g m a pool.
  Proof.
    intros G GH LP LP'. pose proof (pow2N pp WF) as P2. pose proof (wf_N _ _ WF) as [_ NB]. pose proof (N_pos N P2) as NP. destruct P2 as [L EL]. pose proof (pow2_Z N L EL) as EZ.
    set (n := Z.of_nat N) in *. set (f := fun i => Z.to_nat ((g * Z.of_nat i) mod n)).
    set (v := fun i => if Z.land (Z.shiftr (w64 (Z.of_nat i * g)) (len64 (n - 1))) 1 =? 0 then co a i else w64 (mq m - co a i)).
    assert (STEP : forall pool0, fold_left (fun r i => let raw := w64 (Z.of_nat i * g) in let index := Z.land raw (n - 1) in
        let tmp := Z.land (Z.shiftr raw (len64 (n - 1))) 1 in
        upd r (Z.to_nat index) (if tmp =? 0 then co a i else w64 (mq m - co a i))) (seq 0 N) pool0
       = fold_left (fun r i => upd r (f i) (v i)) (seq 0 N) pool0).
    { assert (X : forall l pool0, (forall i, In i l -> (i < N)%nat) -> fold_left (fun r i => let raw := w64 (Z.of_nat i * g) in let index := Z.land raw (n - 1) in
        let tmp := Z.land (Z.shiftr raw (len64 (n - 1))) 1 in
        upd r (Z.to_nat index) (if tmp =? 0 then co a i else w64 (mq m - co a i))) l pool0
       = fold_left (fun r i => upd r (f i) (v i)) l pool0); [|intros pool0; apply X; intros i Hi; apply in_seq in Hi; lia].
      induction l as [|i l IH]; intros pool0 HL; [reflexivity|]. cbn [fold_left]. rewrite IH by (intros; apply HL; right; assumption).
      f_equal. cbv zeta. specialize (HL i ltac:(left; reflexivity)). fold (v i). f_equal. unfold f. f_equal.
      assert (W1 : w64 (Z.of_nat i * g) = g * Z.of_nat i) by (unfold w64; rewrite Z.mod_small; [ring|unfold W; nia]).
      rewrite W1, EZ, land_mask. reflexivity. }
    assert (FB : forall i, (i < N)%nat -> (f i < N)%nat) by (intros i Hi; unfold f; pose proof (Z.mod_pos_bound (g * Z.of_nat i) n ltac:(lia)); lia).
    assert (FI : forall i j, (i < N)%nat -> (j < N)%nat -> f i = f j -> i = j).
    { intros i j Hi Hj E. apply Nat2Z.inj.
      assert (X : forall x, (x < N)%nat -> (g * Z.of_nat x) mod n = Z.of_nat (f x)) by (intros x Hx; unfold f; pose proof (Z.mod_pos_bound (g * Z.of_nat x) n ltac:(lia)); lia).
      pose proof (proj1 (gh_index g h (f i) NP GH (FB i Hi) i Hi) (X i Hi)) as I1.
      pose proof (proj1 (gh_index g h (f j) NP GH (FB j Hj) j Hj) (X j Hj)) as I2. rewrite I1, I2, E. reflexivity. }
    assert (FS : forall k, (k < N)%nat -> exists i, (i < N)%nat /\ f i = k).
    { intros k Hk. set (i := Z.to_nat ((Z.of_nat k * h) mod n)). pose proof (Z.mod_pos_bound (Z.of_nat k * h) n ltac:(lia)).
      assert (Hi : (i < N)%nat) by (unfold i; lia). exists i. split; [assumption|].
      assert (Zi : Z.of_nat i = (Z.of_nat k * h) mod n) by (unfold i; lia).
      pose proof (proj2 (gh_index g h k NP GH Hk i Hi) Zi) as E. unfold f, n. rewrite E. apply Nat2Z.id. }
    assert (VAL : forall pool0, length pool0 = N -> forall i, (i < N)%nat -> co (perm_row g m a pool0) (f i) = v i).
    { intros pool0 L0 i Hi. unfold perm_row. fold n. rewrite co_mkR by (apply FB; assumption). rewrite STEP.
      destruct (writes_ok f v 0 N pool0) as [_ V]; [intros; rewrite L0; apply FB; assumption|assumption|]. apply V. assumption. }
    apply R_ext. intros k Hk. destruct (FS k Hk) as (i & Hi & <-). rewrite !VAL by assumption. reflexivity.
  Qed.
  Definition rowsAre (n : nat) (c : ct) : Prop := forall id p, mget seq_dec c id = Some p -> length (prows p) = n.
  Lemma rowsAre_cset n (c : ct) id p : rowsAre n c -> length (prows p) = n -> rowsAre n (cset c id p).
  Proof. intros H L x q. unfold cset. rewrite mget_mset. destruct (seq_dec x id); [intros E; injection E as <-; exact L|apply H]. Qed.
  Lemma rowsAre_cwr n (c c' : ct) id r : rowsAre n c -> length r = n -> cwr c id r = Ok c' -> rowsAre n c'.
  Proof. intros H L. unfold cwr. destruct (cget c id); cbn [rbind]; [|discriminate]. intros E. injection E as <-. apply rowsAre_cset; trivial. Qed.
  Lemma rowsAre_get n (c : ct) id p : rowsAre n c -> cget c id = Ok p -> length (prows p) = n.
  Proof. intros H. unfold cget. destruct (mget seq_dec c id) eqn:E; [|discriminate]. intros X. injection X as <-. apply (H _ _ E). Qed.
  Lemma rowsAre_level n (c : ct) l : rowsAre (S n) c -> ctLevel c = Ok l -> l = n.
  Proof. intros H E. unfold ctLevel in E. destruct (cget c id0) as [p|] eqn:G; cbn [rbind] in E; [|discriminate]. injection E as <-. unfold plevel. rewrite (rowsAre_get _ _ _ _ H G). lia. Qed.
  Lemma lvlQ2_len level f (a b : list R) : length (lvlQ2 pp level f a b) = S level. Proof. apply tab_length. Qed.
  Lemma permSt_ok level k (st : kst) q : (level < nQ)%nat -> sh st -> length (prows q) = S level ->
    exists st', permSt pp level (galEl N k) st q = (st', polyCopy q (Pol (permRows pp level (galEl N k) (prows q)) false)) /\ sh st'.
  Proof.
    intros HL SH LQ. unfold permSt. cbv zeta. eexists. split.
    - f_equal. cbn [setq0 kq0]. assert (Q0 : shq (kq0 st)) by (unfold sh in SH; tauto). destruct Q0 as [L0 F0]. unfold polyCopy. cbn [prows pntt]. rewrite F0, L0. unfold permRows. rewrite !tab_length. rewrite LQ.
      replace (Nat.min (S level) nQ) with (S level) by lia. rewrite Nat.min_id. f_equal. f_equal. apply (nth_ext _ _ R0 R0).
      + rewrite !firstn_length, !tab_length. lia.
      + intros j Hj. rewrite firstn_length, tab_length in Hj. rewrite !nth_firstn by lia. rewrite !nth_tab by lia. destruct (Nat.leb_spec j level); [|lia].
        pose proof (pow2N pp WF) as P2. apply (perm_row_pool _ (invGalEl N (galEl N k))); [apply (galEl_range N P2)|apply (invGalEl_ok N P2); apply (galEl_odd N P2)|apply repeat_length|apply tab_length].
    - unfold sh in SH |- *. cbn [setq0 kP0 kP1 kInv kq0 kq1 kq2 ks1 ks2 ks3]. unfold shq at 1. cbn [prows pntt]. rewrite tab_length. unfold shq in SH. unfold shq. tauto.
  Qed.
  Lemma ExtOp_len level h (op : ct) id key e : (level < nQ)%nat -> ExtOp pp level h op id key = Ok e -> length e = S level.
  Proof.
    intros HL. assert (X : forall c e, rescaleP pp level c = Ok e -> length (e : list R) = S level).
    { intros c e0. unfold rescaleP, colmap. cbv zeta. destruct (rmapM _ _); cbn [rbind]; [|discriminate]. intros E. injection E as <-. apply tab_length. }
    unfold ExtOp. destruct h.
    - destruct (hget _ _); cbn [rbind]; [|discriminate]. unfold ExternalProductHoisted. destruct (rmapM _ _); cbn [rbind]; [|discriminate]. destruct (mac_digits _ _ _ _); cbn [rbind]; [|discriminate]. apply X.
    - destruct (cgetL _ _ _); cbn [rbind]; [|discriminate]. unfold ExternalProduct. destruct (Decompose _ _ _); cbn [rbind]; [|discriminate]. destruct (mac_digits _ _ _ _); cbn [rbind]; [|discriminate]. apply X.
  Qed.
  Definition uniform (c : ct) : Prop := forall l, ctLevel c = Ok l -> (l < nQ)%nat /\ rowsAre (S l) c.
  Lemma RotateSt_sim o crs st (ctIn : ct) h h' k rk out : order_ok o -> sh st -> uniform out -> hrelP ctIn out h h' ->
    rsim (fun c r => same c r /\ uniform c) (RotateGen pp o crs h ctIn k rk out) (RotateSt pp o crs st h' ctIn k rk out).
  Proof.
    intros O SH UF RH. unfold RotateGen, RotateSt. apply rsim_eq. intros level EL. destruct (UF level EL) as [HL RA]. specialize (RH level EL).
    apply rsim_eq. intros ids EI. apply rsim_eq. intros lin _. destruct (lin <? level)%nat; [exact I|]. apply rsim_eq. intros kk _. apply rsim_eq. intros p0 _. apply rsim_eq. intros q0 E0.
    cbv zeta. set (out1 := cset out id0 (polyCopy q0 p0)).
    assert (RA1 : rowsAre (S level) out1).
    { apply rowsAre_cset; [exact RA|]. pose proof (rowsAre_get _ _ _ _ RA E0) as L. unfold polyCopy. cbn [prows]. rewrite app_length, firstn_length, skipn_length. lia. }
    assert (II : forall n id, In id (o n (keys ids)) -> In id (parties ctIn)) by (intros n id H; apply (ids_parties o ctIn ids id 0 O EI); apply (Permutation_in _ (O n _)); exact H).
    set (J := fun (c : ct) (r : kst * ct) => c = snd r /\ sh (fst r) /\ rowsAre (S level) c).
    eapply (rsim_bind J).
    - apply rsim_fold; [|unfold J; cbn [fst snd]; tauto]. clear st SH. intros c [st c'] id Hid (EC & SH & RC). cbn [fst snd] in EC, SH. subst c'.
      apply rsim_eq. intros key _. eapply rsim_bind; [apply (ExtOpSt_sim level st (parties ctIn) h h' ctIn id (rtk_val key) (rtk_val key) HL SH RH (II _ _ Hid) (drel_refl _ _))|].
      intros e [s e'] EP. pose proof (extPost_sh _ _ _ _ SH EP) as S1. destruct EP as (E & LE & _). cbn [fst snd] in E, S1. subst e'. cbv zeta beta iota.
      assert (Q0 : shq (kq0 s)) by (unfold sh in S1; tauto). set (s1 := setq0 s (wrP level e (kq0 s))).
      assert (S2 : sh s1) by (pose proof (shq_wrP level e _ Q0); unfold sh in S1 |- *; cbn; tauto).
      apply rsim_eq. intros q1 E1. rewrite (lvlQ2_ext level r_add (prows q1) (prows q1) e (prows (kq0 s1)) (eqQ_refl _ _) (wrP_eq level e (kq0 s) HL Q0)).
      apply rsim_eq. intros c1 EC1. apply rsim_eq. intros a _. eapply rsim_bind; [apply (ExtOpSt_sim level s1 (parties ctIn) h h' ctIn id a a HL S2 RH (II _ _ Hid) (drel_refl _ _))|].
      intros ea [s2 ea'] EP. pose proof (extPost_sh _ _ _ _ S2 EP) as S3. destruct EP as (E & LEA & _). cbn [fst snd] in E, S3. subst ea'. cbv zeta beta iota.
      destruct (cwr c1 id ea) as [c2|] eqn:EC2; cbn [rsim rbind]; trivial. split; [reflexivity|]. split; [exact S3|].
      apply (rowsAre_cwr _ c1 c2 id ea); trivial. apply (rowsAre_cwr _ c c1 _ _ RC (lvlQ2_len _ _ _ _) EC1).
    - intros c [s c'] (EC & Ss & RC). cbn [fst snd] in EC, Ss. subst c'. cbv beta iota.
      eapply (rsim_weak J); [intros a b (A & B & C); split; [split; assumption|intros lv EV; pose proof (rowsAre_level _ _ _ C EV); subst lv; split; assumption]|]. apply rsim_fold; [|unfold J; cbn [fst snd]; tauto]. clear c s Ss RC. intros c [s c'] id Hid (EC & Ss & RC). cbn [fst snd] in EC, Ss. subst c'.
      apply rsim_eq. intros q EQ. pose proof (rowsAre_get _ _ _ _ RC EQ) as LQ. destruct (permSt_ok level kk s q HL Ss LQ) as (s' & -> & S'). cbn [rsim]. unfold J. cbn [fst snd]. split; [reflexivity|]. split; [exact S'|].
      apply rowsAre_cset; [exact RC|]. unfold polyCopy, permRows. cbn [prows]. rewrite app_length, firstn_length, skipn_length, tab_length. lia.
  Qed.

  (** *** conjugation *)
  Lemma conj_level (ctIn out out' : ct) g l : In id0 l ->
    rfold (fun c id => p <- cgetL ctIn id (maxLevel pp) ;; _ <- cgetL c id (maxLevel pp) ;; cwr c id (permRows pp (maxLevel pp) g (prows p))) l out = Ok out' ->
    exists p, cget out id0 = Ok p /\ (maxLevel pp < length (prows p))%nat.
  Proof.
    revert out. induction l as [|x l IH]; intros out HI; [destruct HI|]. cbn [rfold]. destruct (seq_dec x id0) as [->|NE].
    - destruct (cgetL ctIn id0 (maxLevel pp)); cbn [rbind]; [|discriminate]. unfold cgetL. destruct (cget out id0) as [p|]; cbn [rbind]; [|discriminate].
      destruct (Nat.leb_spec (length (prows p)) (maxLevel pp)); cbn [rbind]; [discriminate|]. intros _. exists p. split; [reflexivity|assumption].
    - destruct HI as [HI|HI]; [congruence|]. destruct (cgetL ctIn x (maxLevel pp)) as [p|]; cbn [rbind]; [|discriminate]. destruct (cgetL out x (maxLevel pp)); cbn [rbind]; [|discriminate].
      unfold cwr at 1. destruct (cget out x) as [q|]; cbn [rbind]; [|discriminate]. intros E. destruct (IH _ HI E) as (r & A & B). exists r. split; [|exact B].
      unfold cget, cset in A |- *. rewrite mget_mset in A. destruct (seq_dec id0 x); [congruence|exact A].
  Qed.
  Lemma wr_full level (e old : list R) : length old = S level -> length e = S level -> wr level e old = e.
  Proof.
    intros LO LE. apply (nth_ext _ _ R0 R0); [rewrite wr_length; lia|]. intros j Hj. rewrite wr_length in Hj. pose proof (wr_row level e old j Hj) as X. unfold row in X. rewrite X. destruct (Nat.leb_spec j level); [reflexivity|lia].
  Qed.
  Lemma ConjugateSt_sim o crs st (ctIn : ct) ck out : order_ok o -> sh st -> fits out ->
    rsim same (Conjugate pp o crs ctIn ck out) (ConjugateSt pp o crs st ctIn ck out).
  Proof.
    intros O SH FT. unfold Conjugate, ConjugateSt. apply rsim_eq. intros level EL. pose proof (FT level EL) as HL.
    apply rsim_eq. intros ids EI. apply rsim_eq. intros lin ELI. destruct (lin <? level)%nat; [exact I|]. apply rsim_eq. intros out1 E1.
    assert (HI : In id0 (o 1%nat (keys ctIn))).
    { apply (Permutation_in _ (Permutation_sym (O 1%nat _))). unfold ctLevel, cget in ELI. destruct (mget seq_dec ctIn id0) eqn:E; cbn [rbind] in ELI; [|discriminate]. apply (mget_In_keys seq_dec). rewrite E. discriminate. }
    assert (LM : level = maxLevel pp).
    { destruct (conj_level _ _ _ _ _ HI E1) as (p & A & B). unfold ctLevel in EL. rewrite A in EL. cbn [rbind] in EL. injection EL as <-. unfold plevel, maxLevel in *. lia. }
    clear out EL FT E1. assert (LQ : nQ = S level) by (subst level; unfold maxLevel; pose proof (wf_Qpos _ _ WF); lia).
    eapply (rsim_bind same).
    - apply rsim_fold; [|split; [reflexivity|exact SH]]. clear st SH. intros c [st c'] id Hid (EC & SH). cbn [fst snd] in EC, SH. subst c'.
      apply rsim_eq. intros key _. eapply rsim_bind; [apply (ExtOpSt_sim level st [id] None None c id (cjk_val key) (cjk_val key) HL SH I (or_introl eq_refl) (drel_refl _ _))|].
      intros e [s e'] EP. pose proof (extPost_sh _ _ _ _ SH EP) as S1. destruct EP as (E & LE & _). cbn [fst snd] in E, S1. subst e'. cbv zeta beta iota.
      assert (Q0 : shq (kq0 s)) by (unfold sh in S1; tauto). set (s1 := setq0 s (wrP level e (kq0 s))).
      assert (S2 : sh s1) by (pose proof (shq_wrP level e _ Q0); unfold sh in S1 |- *; cbn; tauto).
      apply rsim_eq. intros q1 E1. rewrite (lvlQ2_ext level r_add (prows q1) (prows q1) e (prows (kq0 s1)) (eqQ_refl _ _) (wrP_eq level e (kq0 s) HL Q0)).
      destruct (cwr c id0 _) as [c1|]; cbn [rsim rbind]; trivial. split; [reflexivity|exact S2].
    - intros c [s c'] (EC & Ss). cbn [fst snd] in EC, Ss. subst c'. cbv beta iota.
      apply rsim_fold; [|split; [reflexivity|exact Ss]]. clear st SH s Ss c. intros c [st c'] id Hid (EC & SH). cbn [fst snd] in EC, SH. subst c'.
      apply rsim_eq. intros a _. eapply rsim_bind; [apply (ExtOpSt_sim level st [id] None None c id a a HL SH I (or_introl eq_refl) (drel_refl _ _))|].
      intros e [s e'] EP. pose proof (extPost_sh _ _ _ _ SH EP) as S1. destruct EP as (E & LE & _). cbn [fst snd] in E, S1. subst e'. cbv zeta beta iota.
      assert (Q0 : shq (kq0 s)) by (unfold sh in S1; tauto). apply rsim_eq. intros q1 E1. cbn [rsim setq0 kq0].
      split.
      + cbn [snd]. unfold wrP. destruct Q0 as [L0 F0]. rewrite F0, wr_full by lia. reflexivity.
      + cbn [fst]. pose proof (shq_wrP level e _ Q0). unfold sh in S1 |- *. cbn. tauto.
  Qed.

  Lemma sh_new : sh (NewKeySwitcher pp).
  Proof.
    unfold sh, NewKeySwitcher, shQP, shq, shS, newSwk, newQP. cbn [kP0 kP1 kInv kq0 kq1 kq2 ks1 ks2 ks3 qpQ qpP prows pntt]. rewrite !tab_length.
    assert (X : forall n (d : polyQP N), In d (tab n (fun _ => QP (tab nQ (fun _ => R0)) (tab nP (fun _ => R0)))) -> length (qpQ d) = nQ /\ length (qpP d) = nP).
    { intros n d H. unfold tab in H. apply in_map_iff in H as (x & <- & _). cbn [qpQ qpP]. rewrite !map_length, !seq_length. tauto. }
    repeat split; try (intros; eapply proj1; eapply X; eassumption); try (intros; eapply proj2; eapply X; eassumption).
  Qed.
End Sim.
