(** No scratch buffer of an Evaluator, its KeySwitcher or a RelinearizationKeySet influences a result. *)
From Flocq Require Import Core BinarySingleNaN.
From Coq Require Import Znumtheory.
From Verif Require Import Base IdSetModel IdSetSpec IdSetProofs KeySetModel NumTheory Negacyclic Ntt Word FloatModel CkksFloat BasisExt BasisExtProofs DecompProofs Rows RlweModel KeyGenModel SchemeSpec ExtProd Galois KeyGenProofs CtModel CtSpec CtProofs EncDecProofs KeySwitchModel Digits KsLoops RotProofs CkksModel CkksProofs KsPool KsPoolProofs EvalPool.
Open Scope Z_scope.

Lemma rsim_join {A B C} (P : A -> B -> Prop) (Q : A -> C -> Prop) m n n' : rsim P m n -> rsim Q m n' -> rsim (fun b c => exists a, P a b /\ Q a c) n n'.
Proof. unfold rsim. destruct m, n, n'; trivial; try contradiction. intros H K. eexists. split; eassumption. Qed.
Lemma rbind_panic {A B} (m : res A) (f : A -> res B) : (forall a, m = Ok a -> f a = Panic) -> rbind m f = Panic.
Proof. destruct m; cbn; auto. Qed.
Lemma rfold_panics {A B} (f : B -> A -> res B) l x : In x l -> (forall b, f b x = Panic) -> forall b, rfold f l b = Panic.
Proof. induction l as [|y l IH]; intros I H b; [destruct I|]. cbn [rfold]. destruct I as [->|I]; [rewrite H; reflexivity|]. destruct (f b y); cbn [rbind]; [apply IH; assumption|reflexivity]. Qed.

Section Sim.
  Context {N : nat} (pp : rparams) (WF : wfp N pp).
  Notation R := (R N). Notation ct := (ctT N). Notation kst := (kst N).
  Notation nQ := (length (Qm pp)). Notation nP := (length (Pm pp)).

  Lemma maxL : S (maxLevel pp) = nQ. Proof. unfold maxLevel. pose proof (wf_Qpos _ _ WF). lia. Qed.
  Lemma firstn_eqQ level (a b : list R) : (level < length a)%nat -> (level < length b)%nat -> eqQ level a b -> firstn (S level) a = firstn (S level) b.
  Proof.
    intros LA LB H. apply (nth_ext _ _ R0 R0); [rewrite !firstn_length; lia|]. intros j Hj. rewrite firstn_length in Hj. rewrite !nth_firstn by lia. apply (H j). lia.
  Qed.

  (** *** AddNew, SubNew, MulPtxtNew *)
  Definition trel (level : nat) (ks : list string) (t t' : ct) : Prop :=
    forall x, In x ks -> exists p p', cgetL t x level = Ok p /\ cgetL t' x level = Ok p' /\ (level < length (prows p))%nat /\ (level < length (prows p'))%nat /\ eqQ level (prows p) (prows p').
  Lemma trel_same level l (c : ct) : shape (S l) c -> (level <= l)%nat -> trel level (keys c) c c.
  Proof. intros Sc Hl x Hx. destruct (proj2 (proj2 Sc) x Hx) as [L _]. exists (comp c x), (comp c x). rewrite cgetL_comp by (trivial; lia). repeat split; lia. Qed.
  Definition epost (r r' : evalst N * ckct N) : Prop := snd r = snd r' /\ pool_ok pp (fst r) /\ pool_ok pp (fst r').
  Lemma mbc_rel (o : order) level (c : ckct N) k l pool pool' s : order_ok o -> shape (S l) (cv c) -> (level <= l)%nat -> (l <= maxLevel pp)%nat -> shape (S (maxLevel pp)) pool -> shape (S (maxLevel pp)) pool' ->
    incl (keys (cv c)) (keys pool) -> incl (keys (cv c)) (keys pool') ->
    rsim (fun p p' => shape (S (maxLevel pp)) (cv p) /\ shape (S (maxLevel pp)) (cv p') /\ trel level (keys (cv c)) (cv p) (cv p')) (MultByConst pp (o 5%nat) c k (CK pool s)) (MultByConst pp (o 5%nat) c k (CK pool' s)).
  Proof.
    intros O Sc Hl1 Hl2 SP SP' Ic Ic'.
    pose proof (MultByConst_ok pp (o 5%nat) c (CK pool s) k l (maxLevel pp) ltac:(intros z; apply O) Sc SP Ic) as X.
    pose proof (MultByConst_ok pp (o 5%nat) c (CK pool' s) k l (maxLevel pp) ltac:(intros z; apply O) Sc SP' Ic') as X'. cbn zeta in X, X'.
    rewrite (Nat.min_l l (maxLevel pp)) in X, X' by lia. destruct (mbcConsts pp l k) as [cs|]; [|rewrite X, X'; exact I].
    destruct X as (v & -> & X2 & X3 & X4 & X5). destruct X' as (v' & -> & X2' & X3' & X4' & X5'). cbn [rsim cv] in *. split; [exact X2|]. split; [exact X2'|].
    intros x Hx. exists (comp v x), (comp v' x). rewrite X4, X4' by assumption.
    assert (LL : forall pl : ct, (level < length (tab (S l) (hrow pp cs (cv c) x) ++ skipn (S l) (prows (comp pl x))))%nat) by (intros pl; rewrite app_length, tab_length; lia).
    rewrite !cgetL_comp; rewrite ?X4, ?X4' by assumption; cbn [prows]; trivial; [|apply X3'; apply Ic'; exact Hx|apply X3; apply Ic; exact Hx].
    split; [reflexivity|]. split; [reflexivity|]. split; [apply LL|]. split; [apply LL|]. intros j Hj. rewrite !row_app1 by (rewrite tab_length; lia). reflexivity.
  Qed.
  Lemma evaluateInPlace_sim (o : order) st st' (c0 c1 out : ckct N) ev l0 l1 : order_ok o -> pool_ok pp st -> pool_ok pp st' -> (l0 <= maxLevel pp)%nat -> (l1 <= maxLevel pp)%nat ->
    shape (S l0) (cv c0) -> shape (S l1) (cv c1) -> shape (S (Nat.min l0 l1)) (cv out) -> (forall x, In x (keys (cv out)) <-> In x (keys (cv c0)) \/ In x (keys (cv c1))) ->
    rsim epost (evaluateInPlace pp o st c0 c1 out ev) (evaluateInPlace pp o st' c0 c1 out ev).
  Proof.
    intros O [SP LP] [SP' LP'] H0 H1 S0 S1 SO KO. unfold evaluateInPlace.
    destruct (IDSetOf_ok (o 0%nat) (cv c0)) as (ids0 & A0 & M0 & B0); [intros l; apply O|].
    destruct (IDSetOf_ok (o 1%nat) (cv c1)) as (ids1 & A1 & M1 & B1); [intros l; apply O|]. rewrite A0, A1. cbn [rbind].
    assert (RP : forall (ids : idset) (c : ct), mwf ids -> (forall x, is_has ids x = true <-> x <> id0 /\ In x (keys c)) -> IdSetProofs.rep ids (fun x => x <> id0 /\ In x (keys c))).
    { intros ids c M B. assert (X : forall x, In x (keys ids) <-> x <> id0 /\ In x (keys c)) by (intros x; rewrite <- (B x); unfold is_has; rewrite mhas_In; reflexivity).
      split; [assumption|]. split; [rewrite X; tauto|exact X]. }
    destruct (rep_union o O 2 ids0 _ ids1 _ (RP _ _ M0 B0) (RP _ _ M1 B1)) as (ids & AU & RU). rewrite AU. cbn [rbind].
    destruct (pad_shape (fun n => o (10 + n)%nat) (maxLevel pp) (ctxtPool st) ids) as (pool & AP & SPl & KP); [intros n l; apply O|assumption|apply RU|].
    destruct (pad_shape (fun n => o (10 + n)%nat) (maxLevel pp) (ctxtPool st') ids) as (pool' & AP' & SPl' & KP'); [intros n l; apply O|assumption|apply RU|].
    rewrite AP, AP'. cbn [rbind]. rewrite (shape_level _ _ S0), (shape_level _ _ S1), (shape_level _ _ SO). cbn [rbind]. rewrite Nat.min_id. set (level := Nat.min l0 l1) in *.
    destruct (Nat.ltb_spec level level); [lia|]. cbn [rbind].
    assert (IP : forall x, In x (keys (cv c0)) \/ In x (keys (cv c1)) -> In x (keys pool)).
    { intros x Hx. apply KP. destruct (string_dec x id0) as [->|n]; [left; apply SP|]. right. apply (proj2 (proj2 RU)). tauto. }
    assert (IP' : forall x, In x (keys (cv c0)) \/ In x (keys (cv c1)) -> In x (keys pool')).
    { intros x Hx. apply KP'. destruct (string_dec x id0) as [->|n]; [left; apply SP'|]. right. apply (proj2 (proj2 RU)). tauto. }
    eapply (rsim_bind (fun '(p, t0, t1) '(p', t0', t1') => shape (S (maxLevel pp)) p /\ shape (S (maxLevel pp)) p' /\ trel level (keys (cv c0)) t0 t0' /\ trel level (keys (cv c1)) t1 t1')).
    { destruct (f_gt (csc c1) (csc c0) && f_gt (f_floor (f_div (csc c1) (csc c0))) f_one).
      - eapply rsim_bind; [apply (mbc_rel o level c0 _ l0); trivial; [lia|intros x Hx; apply IP; tauto|intros x Hx; apply IP'; tauto]|].
        intros p p' (Q1 & Q2 & Q3). cbn [rsim]. split; [exact Q1|]. split; [exact Q2|]. split; [exact Q3|apply (trel_same level l1); trivial; lia].
      - destruct (f_gt (csc c0) (csc c1) && f_gt (f_floor (f_div (csc c0) (csc c1))) f_one).
        + eapply rsim_bind; [apply (mbc_rel o level c1 _ l1); trivial; [lia|intros x Hx; apply IP; tauto|intros x Hx; apply IP'; tauto]|].
          intros p p' (Q1 & Q2 & Q3). cbn [rsim]. split; [exact Q1|]. split; [exact Q2|]. split; [apply (trel_same level l0); trivial; lia|exact Q3].
        + cbn [rsim]. split; [exact SPl|]. split; [exact SPl'|]. split; [apply (trel_same level l0); trivial; lia|apply (trel_same level l1); trivial; lia]. }
    intros [[q t0] t1] [[q' t0'] t1'] (Q & Q' & T0 & T1).
    destruct (T0 id0 (proj1 (proj2 S0))) as (a & a' & EA & EA' & _ & _ & RA). destruct (T1 id0 (proj1 (proj2 S1))) as (b & b' & EB & EB' & _ & _ & RB).
    rewrite EA, EA', EB, EB'. cbn [rbind]. apply rsim_eq. intros p _. rewrite (lvlQ2_ext pp level ev _ _ _ _ RA RB).
    apply rsim_eq. intros rows _. cbv zeta. set (v0 := cset (cv out) id0 (Pol rows (pntt p))).
    assert (K0 : forall x, In x (keys v0) <-> In x (keys (cv out))) by (intros x; apply keys_upd; apply SO).
    destruct (IDSetOf_ok (o 6%nat) v0) as (idso & AO & MO & BO); [intros l; apply O|]. rewrite AO. cbn [rbind].
    eapply (rsim_bind eq).
    - apply rsim_fold; [|reflexivity]. intros v v' id Hid <-. apply rsim_eq. intros p1 _.
      assert (KI : id <> id0 /\ In id (keys (cv out))).
      { rewrite <- (K0 id), <- (BO id). unfold is_has. rewrite mhas_In. apply (Permutation_in _ (O 7%nat _)). exact Hid. }
      destruct KI as [NI KI]. apply KO in KI.
      destruct (is_has ids0 id) eqn:E0; cbn [negb].
      + apply B0 in E0 as [_ I0]. destruct (T0 id I0) as (x & x' & EX & EX' & LX & LX' & RX). destruct (is_has ids1 id) eqn:E1; cbn [negb].
        * apply B1 in E1 as [_ I1]. destruct (T1 id I1) as (y & y' & EY & EY' & LY & LY' & RY). rewrite EX, EX', EY, EY'. cbn [rbind]. rewrite (lvlQ2_ext pp level ev _ _ _ _ RX RY).
          apply rsim_eq. intros rr _. reflexivity.
        * rewrite EX, EX'. cbn [rbind]. unfold wrLvl. rewrite (firstn_eqQ level _ _ LX LX' RX). apply rsim_eq. intros rr _. reflexivity.
      + assert (I1 : In id (keys (cv c1))) by (destruct KI as [X|X]; [|exact X]; assert (is_has ids0 id = true) by (apply B0; tauto); congruence).
        destruct (T1 id I1) as (y & y' & EY & EY' & LY & LY' & RY). rewrite EY, EY'. cbn [rbind]. unfold wrLvl. rewrite (firstn_eqQ level _ _ LY LY' RY). apply rsim_eq. intros rr _. reflexivity.
    - intros v v' <-. cbn [rsim]. unfold epost, pool_ok. cbn [fst snd ctxtPool polyQPool]. tauto.
  Qed.
  Definition good (c : ckct N) : Prop := exists l, (l < nQ)%nat /\ shape (S l) (cv c).
  Lemma AddNew_sim (o : order) st st' c0 c1 : order_ok o -> pool_ok pp st -> pool_ok pp st' -> good c0 -> good c1 -> rsim epost (AddNew pp o st c0 c1) (AddNew pp o st' c0 c1).
  Proof.
    intros O P P' (l0 & H0 & S0) (l1 & H1 & S1). unfold AddNew. pose proof maxL as ML.
    destruct (newBinary_ok pp WF o c0 c1 l0 l1 O H0 H1 S0 S1) as (v & -> & Wv & Kv). cbn [rbind].
    apply (evaluateInPlace_sim o st st' c0 c1 _ r_add l0 l1); trivial; try lia. apply (wfct_shape pp). exact Wv.
  Qed.
  Lemma SubNew_sim (o : order) st st' c0 c1 : order_ok o -> pool_ok pp st -> pool_ok pp st' -> good c0 -> good c1 -> rsim epost (SubNew pp o st c0 c1) (SubNew pp o st' c0 c1).
  Proof.
    intros O P P' (l0 & H0 & S0) (l1 & H1 & S1). unfold SubNew. pose proof maxL as ML.
    destruct (newBinary_ok pp WF o c0 c1 l0 l1 O H0 H1 S0 S1) as (v & -> & Wv & Kv). cbn [rbind].
    eapply rsim_bind; [apply (evaluateInPlace_sim o st st' c0 c1 _ r_sub l0 l1); trivial; try lia; apply (wfct_shape pp); exact Wv|].
    intros [s c] [s' c'] (EC & Q & Q'). cbn [fst snd] in EC, Q, Q'. subst c'.
    apply rsim_eq. intros x1 _. apply rsim_eq. intros x2 _. apply rsim_eq. intros x3 _. apply rsim_eq. intros x4 _. apply rsim_eq. intros x5 _. cbv zeta.
    apply rsim_eq. intros x6 _. cbn [rsim]. unfold epost. cbn [fst snd]. tauto.
  Qed.
  Lemma MulPtxtNew_sim (o : order) pscale st st' (c : ckct N) pt ps : order_ok o -> pool_ok pp st -> pool_ok pp st' -> rsim epost (MulPtxtNew pp o pscale st c pt ps) (MulPtxtNew pp o pscale st' c pt ps).
  Proof.
    intros O [SP LP] [SP' LP']. unfold MulPtxtNew. apply rsim_eq. intros ids _. apply rsim_eq. intros level _. cbv zeta. destruct (Nat.leb_spec (length (prows pt)) level); [exact I|].
    unfold wrLvl. rewrite LP, LP'. destruct (Nat.leb_spec (S (maxLevel pp)) level) as [L|L]; [exact I|]. cbn [rbind].
    set (new := lvlQ1 pp level r_mform (lvlQ1 pp level ntt (prows pt))). set (a := firstn (S level) new ++ skipn (S level) (polyQPool st)). set (a' := firstn (S level) new ++ skipn (S level) (polyQPool st')).
    assert (LN : length new = S level) by apply tab_length.
    assert (LA : length a = S (maxLevel pp) /\ length a' = S (maxLevel pp)) by (unfold a, a'; rewrite !app_length, !firstn_length, !skipn_length; lia).
    assert (E : eqQ level a a') by (intros j Hj; unfold a, a'; rewrite !row_app1 by (rewrite firstn_length; lia); reflexivity).
    eapply (rsim_bind eq).
    - apply rsim_fold; [|reflexivity]. intros v v' id _ <-. apply rsim_eq. intros p _. apply rsim_eq. intros q _. rewrite (lvlQ2_ext pp level r_mont _ _ a a' (eqQ_refl _ _) E). reflexivity.
    - intros v v' <-. apply rsim_eq. intros [c' b] _. cbn [rsim]. unfold epost, pool_ok. cbn [fst snd ctxtPool polyQPool]. tauto.
  Qed.

  (** *** hoisting *)
  Lemma drel_mono level level' (a b : swk N) : (level' <= level)%nat -> (level < nQ)%nat -> drel pp level a b -> drel pp level' a b.
  Proof.
    intros H HL D i Hi. pose proof (beta_mono2 pp WF level' level H HL). specialize (D i ltac:(lia)). eapply rsim_weak; [|exact D].
    intros x y [E1 E2]. split; [intros j Hj; apply E1; lia|exact E2].
  Qed.
  Definition hshape (hp : hoisted N) : Prop := forall id d, mget seq_dec hp id = Some d -> shS pp d.
  Definition covers (hp : hoisted N) (l : list string) : Prop := forall id, In id l -> mget seq_dec hp id <> None.
  Definition hinv (level : nat) (h hp : hoisted N) : Prop := forall id d, mget seq_dec h id = Some d -> exists d', mget seq_dec hp id = Some d' /\ drel pp level d d'.
  Definition hkeep (hp hp' : hoisted N) : Prop := hshape hp' /\ forall id, mget seq_dec hp id <> None -> mget seq_dec hp' id <> None.
  Lemma hinv_set level h hp id d d' : hinv level h hp -> drel pp level d d' -> hinv level (mset seq_dec h id d) (mset seq_dec hp id d').
  Proof.
    intros H D x y. rewrite !mget_mset. destruct (seq_dec x id); [|apply H]. intros E. injection E as <-. exists d'. split; [reflexivity|exact D].
  Qed.
  Lemma hinv_hrel level level' l h hp : (level' <= level)%nat -> (level < nQ)%nat -> hinv level h hp -> covers h l -> hrel pp level' l (Some h) (Some hp).
  Proof.
    intros H HL I C id Hid. unfold hget. specialize (C id Hid). destruct (mget seq_dec h id) as [d|] eqn:E; [|congruence]. destruct (I id d E) as (d' & -> & D). cbn [rsim]. apply (drel_mono level); assumption.
  Qed.
  Lemma setE_sh (st : kst) r : sh pp st -> length r = nQ -> sh pp (setE st (kP0 st) (kP1 st) r). Proof. unfold sh. cbn. tauto. Qed.
  Lemma hoistIntoSt_sim (o : list string -> list string) rs st hp (c : ckct N) ids : sh pp st -> fits pp (cv c) -> hshape hp -> ord1_ok o ->
    (forall id, In id (keys ids) -> mget seq_dec rs id <> None /\ mget seq_dec hp id <> None) ->
    rsim (fun h '(st', hp') => sh pp st' /\ hkeep hp hp' /\ (forall l, ctLevel (cv c) = Ok l -> hinv l h hp') /\ covers h (keys ids)) (hoistInto pp o rs c ids) (hoistIntoSt pp o st hp c ids).
  Proof.
    intros SH FT HS O HH. unfold hoistInto, hoistIntoSt. apply rsim_eq. intros level EL. pose proof (FT level EL) as HL.
    assert (G : forall l, (forall id, In id l -> In id (keys ids)) -> forall h st hp', sh pp st -> hkeep hp hp' -> hinv level h hp' ->
      rsim (fun h1 '(st1, hp1) => sh pp st1 /\ hkeep hp hp1 /\ hinv level h1 hp1 /\ covers h1 l /\ forall id, mget seq_dec h id <> None -> mget seq_dec h1 id <> None)
        (rfold (fun h id => p <- cgetL (cv c) id level ;; _ <- rlk_get rs id ;; d <- Decompose pp level p ;; Ok (mset seq_dec h id d)) l h)
        (rfold (fun '(st, hp) id => p <- cgetL (cv c) id level ;; b <- hget hp id ;; '(st, d) <- DecSt pp level st p b ;; Ok (st, mset seq_dec hp id d)) l (st, hp'))).
    { induction l as [|x l IH]; intros HI h s hp' Ss [HK1 HK2] IV; cbn [rfold].
      - cbn [rsim]. split; [exact Ss|]. split; [split; assumption|]. split; [exact IV|]. split; [intros id []|auto].
      - destruct (HH x (HI x (or_introl eq_refl))) as [RX HX]. specialize (HK2 x HX) as HX'. unfold rlk_get, hget. destruct (mget seq_dec rs x) as [k|] eqn:ER; [|congruence]. destruct (mget seq_dec hp' x) as [b|] eqn:EB; [|congruence].
        destruct (cgetL (cv c) x level) as [p|]; cbn [rbind]; [|exact I].
        pose proof (DecSt_sim pp WF level s p p b HL Ss (HK1 _ _ EB) (prel_refl _ _)) as D.
        destruct (Decompose pp level p) as [ds|], (DecSt pp level s p b) as [[s' ds']|]; cbn [rsim rbind] in D |- *; trivial; try contradiction. destruct D as ((r & Lr & ->) & _ & SD & DR).
        assert (KK : hkeep hp (mset seq_dec hp' x ds')).
        { split; [intros id d; rewrite mget_mset; destruct (seq_dec id x); [intros E; injection E as <-; exact SD|apply HK1]|]. intros id Hid. rewrite mget_mset. destruct (seq_dec id x); [discriminate|apply HK2; exact Hid]. }
        specialize (IH (fun id Hid => HI id (or_intror Hid)) (mset seq_dec h x ds) _ _ (setE_sh s r Ss Lr) KK (hinv_set _ _ _ x _ _ IV DR)).
        eapply rsim_weak; [|exact IH]. intros h1 [st1 hp1] (Q1 & Q2 & Q3 & Q4 & Q5). split; [exact Q1|]. split; [exact Q2|]. split; [exact Q3|]. split.
        + intros id [<-|Hid]; [|apply Q4; exact Hid]. apply Q5. rewrite mget_mset. destruct (seq_dec x x); [discriminate|congruence].
        + intros id Hid. apply Q5. rewrite mget_mset. destruct (seq_dec id x); [discriminate|exact Hid]. }
    eapply rsim_weak; [|apply (G (o (keys ids)) (fun id Hid => Permutation_in _ (O _) Hid) nil st hp SH); [split; auto|intros id d E; discriminate]].
    intros h [st' hp'] (Q1 & Q2 & Q3 & Q4 & _). split; [exact Q1|]. split; [exact Q2|]. split; [intros l E; rewrite EL in E; injection E as <-; exact Q3|].
    intros id Hid. apply Q4. apply (Permutation_in _ (Permutation_sym (O _))). exact Hid.
  Qed.
  Lemma shS_new : shS pp (newSwk pp : swk N).
  Proof. pose proof (@sh_new N pp) as X. exact (proj1 (proj2 (proj2 (proj2 (proj2 (proj2 (proj2 X))))))). Qed.
  Lemma HoistedFormSt_sim (o : order) st (c : ckct N) : order_ok o -> sh pp st -> fits pp (cv c) ->
    rsim (fun h '(st', hp') => sh pp st' /\ (forall l, ctLevel (cv c) = Ok l -> hinv l h hp') /\ covers h (parties (cv c))) (HoistedForm pp o c) (HoistedFormSt pp o st c).
  Proof.
    intros O SH FT. unfold HoistedForm, HoistedFormSt. apply rsim_eq. intros ids EI. apply rsim_eq. intros level EL. pose proof (FT level EL) as HL.
    assert (G : forall l h st hp', sh pp st -> hinv level h hp' ->
      rsim (fun h1 '(st1, hp1) => sh pp st1 /\ hinv level h1 hp1 /\ covers h1 l /\ forall id, mget seq_dec h id <> None -> mget seq_dec h1 id <> None)
        (rfold (fun h id => p <- cgetL (cv c) id level ;; d <- Decompose pp level p ;; Ok (mset seq_dec h id d)) l h)
        (rfold (fun '(st, hp) id => p <- cgetL (cv c) id level ;; '(st, d) <- DecSt pp level st p (newSwk pp) ;; Ok (st, mset seq_dec hp id d)) l (st, hp'))).
    { induction l as [|x l IH]; intros h s hp' Ss IV; cbn [rfold].
      - cbn [rsim]. split; [exact Ss|]. split; [exact IV|]. split; [intros id []|auto].
      - destruct (cgetL (cv c) x level) as [p|]; cbn [rbind]; [|exact I].
        pose proof (DecSt_sim pp WF level s p p (newSwk pp) HL Ss shS_new (prel_refl _ _)) as D.
        destruct (Decompose pp level p) as [ds|], (DecSt pp level s p (newSwk pp)) as [[s' ds']|]; cbn [rsim rbind] in D |- *; trivial; try contradiction. destruct D as ((r & Lr & ->) & _ & SD & DR).
        specialize (IH (mset seq_dec h x ds) _ _ (setE_sh s r Ss Lr) (hinv_set _ _ _ x _ _ IV DR)).
        eapply rsim_weak; [|exact IH]. intros h1 [st1 hp1] (Q1 & Q3 & Q4 & Q5). split; [exact Q1|]. split; [exact Q3|]. split.
        + intros id [<-|Hid]; [|apply Q4; exact Hid]. apply Q5. rewrite mget_mset. destruct (seq_dec x x); [discriminate|congruence].
        + intros id Hid. apply Q5. rewrite mget_mset. destruct (seq_dec id x); [discriminate|exact Hid]. }
    eapply rsim_weak; [|apply (G (o 51%nat (keys ids)) nil st nil SH); intros id d E; discriminate].
    intros h [st' hp'] (Q1 & Q3 & Q4 & _). split; [exact Q1|]. split; [intros l E; rewrite EL in E; injection E as <-; exact Q3|].
    intros id Hid. apply Q4. apply (Permutation_in _ (Permutation_sym (O 51%nat _))).
    destruct (IDSetOf_ok (o 50%nat) (cv c) (fun l => O 50%nat l)) as (ids' & A & _ & B). rewrite EI in A. injection A as <-. apply in_parties in Hid. apply (mhas_In seq_dec). apply B. exact Hid.
  Qed.

  (** *** multiplication *)
  Lemma good_level (c : ckct N) l : good c -> ctLevel (cv c) = Ok l -> (l < nQ)%nat /\ shape (S l) (cv c).
  Proof. intros (l' & H & S) E. rewrite (shape_level _ _ S) in E. injection E as <-. split; assumption. Qed.
  Lemma good_fits (c : ckct N) : good c -> fits pp (cv c). Proof. intros G l E. apply (good_level c l G E). Qed.
  Definition ksame (c : ckct N) (r : kst * ckct N) : Prop := c = snd r /\ sh pp (fst r).
  Lemma MulRelinHoistedNewSt_sim (o : order) crs pscale st c0 c1 h0 h0' h1 h1' rs : order_ok o -> sh pp st -> good c0 -> good c1 ->
    (forall l, (forall l0, ctLevel (cv c0) = Ok l0 -> (l <= l0)%nat) -> hrel pp l (parties (cv c0)) h0 h0') -> (forall l, (forall l1, ctLevel (cv c1) = Ok l1 -> (l <= l1)%nat) -> hrel pp l (parties (cv c1)) h1 h1') ->
    rsim ksame (MulRelinHoistedNew pp o crs pscale c0 c1 h0 h1 rs) (MulRelinHoistedNewSt pp o crs pscale st c0 c1 h0' h1' rs).
  Proof.
    intros O SH (l0 & H0 & S0) (l1 & H1 & S1) R0' R1'. unfold MulRelinHoistedNew, MulRelinHoistedNewSt, mulRelinHoisted.
    destruct (newBinary_ok pp WF o c0 c1 l0 l1 O H0 H1 S0 S1) as (v & -> & Wv & Kv). cbn [rbind cv]. rewrite (shape_level _ _ S0), (shape_level _ _ S1), (wfct_level pp _ _ _ Wv). cbn [rbind]. cbv zeta. rewrite Nat.min_id, Nat.ltb_irrefl. cbn [rbind cv].
    assert (LV : forall l, ctLevel v = Ok l -> l = Nat.min l0 l1) by (intros l E; rewrite (wfct_level pp _ _ _ Wv) in E; congruence).
    eapply rsim_bind.
    - unfold MulAndRelinHoistedSt. apply (MulSt_sim pp WF true o crs st (cv c0) (cv c1) h0 h0' h1 h1' rs v O SH).
      + intros l E. rewrite (LV l E). lia.
      + intros l E. rewrite (LV l E). apply R0'. rewrite (shape_level _ _ S0). intros z Ez. injection Ez as <-. lia.
      + intros l E. rewrite (LV l E). apply R1'. rewrite (shape_level _ _ S1). intros z Ez. injection Ez as <-. lia.
      + discriminate.
    - intros c [s c'] [EC Ss]. cbn [fst snd] in EC, Ss. subst c'. apply rsim_eq. intros [out b] _. cbn [rsim]. split; [reflexivity|exact Ss].
  Qed.
  Lemma hrel_of (c : ckct N) h hp : good c -> (forall l, ctLevel (cv c) = Ok l -> hinv l h hp) -> covers h (parties (cv c)) ->
    forall l, (forall l0, ctLevel (cv c) = Ok l0 -> (l <= l0)%nat) -> hrel pp l (parties (cv c)) (Some h) (Some hp).
  Proof. intros (l0 & H0 & S0) I C l HL. pose proof (shape_level _ _ S0) as E. apply (hinv_hrel l0); [apply HL; exact E|exact H0|apply I; exact E|exact C]. Qed.
  Definition mulpost (hp0 hp1 : hoisted N) (c : ckct N) (r : kst * hoisted N * hoisted N * ckct N) : Prop := c = snd r /\ sh pp (fst (fst (fst r))) /\ hkeep hp0 (snd (fst (fst r))) /\ hkeep hp1 (snd (fst r)).
  Lemma ids_of_parties (o : order) n (c : ct) ids : order_ok o -> IDSetOf (o n) c = Ok ids -> forall id, In id (keys ids) <-> In id (parties c).
  Proof.
    intros O E id. destruct (IDSetOf_ok (o n) c (fun l => O n l)) as (ids' & A & _ & B). rewrite E in A. injection A as <-. rewrite in_parties, <- B. unfold is_has. symmetry. apply (mhas_In seq_dec).
  Qed.
  Lemma MulRelinNewSt_sim (o : order) crs pscale st hp0 hp1 c0 c1 same rs : order_ok o -> sh pp st -> hshape hp0 -> hshape hp1 -> good c0 -> good c1 -> (same = true -> c0 = c1) ->
    (forall id, mget seq_dec rs id <> None -> mget seq_dec hp0 id <> None /\ mget seq_dec hp1 id <> None) ->
    (forall id, In id (parties (cv c0)) \/ In id (parties (cv c1)) -> mget seq_dec rs id <> None) ->
    rsim (mulpost hp0 hp1) (MulRelinNew pp o crs pscale c0 c1 same rs) (MulRelinNewSt pp o crs pscale st hp0 hp1 c0 c1 same rs).
  Proof.
    intros O SH HS0 HS1 G0 G1 SM HH HK. unfold MulRelinNew, MulRelinNewSt. apply rsim_eq. intros ids0 E0. pose proof (ids_of_parties o _ _ _ O E0) as P0.
    pose proof (hoistIntoSt_sim (o 61%nat) rs st hp0 c0 ids0 SH (good_fits _ G0) HS0 (fun l => O 61%nat l)) as D.
    match type of D with ?X -> _ => assert (K : X) end. { intros id Hid. apply P0 in Hid. assert (A : mget seq_dec rs id <> None) by (apply HK; tauto). split; [exact A|apply HH; exact A]. } specialize (D K). clear K.
    destruct same.
    - specialize (SM eq_refl). subst c1. eapply rsim_bind; [exact D|]. intros h [s hp] (Ss & KK & IV & CV).
      assert (C : covers h (parties (cv c0))) by (intros id Hid; apply CV; apply P0; exact Hid).
      match goal with |- rsim _ ?m _ => replace m with (c <- m ;; Ok c) by (destruct m; reflexivity) end.
      eapply rsim_bind; [apply (MulRelinHoistedNewSt_sim o crs pscale s c0 c0 (Some h) (Some hp) (Some h) (Some hp) rs O Ss G0 G0); apply (hrel_of c0); assumption|].
      intros c [s' c'] [EC S']. cbn [fst snd] in EC, S'. subst c'. cbn [rsim]. unfold mulpost. cbn [fst snd]. split; [reflexivity|]. split; [exact S'|]. split; [exact KK|]. split; [exact HS1|auto].
    - apply rsim_eq. intros ids1 E1. pose proof (ids_of_parties o _ _ _ O E1) as P1. eapply rsim_bind; [exact D|]. clear D. intros h [s hp] (Ss & KK & IV & CV).
      assert (C : covers h (parties (cv c0))) by (intros id Hid; apply CV; apply P0; exact Hid).
      pose proof (hoistIntoSt_sim (o 63%nat) rs s hp1 c1 ids1 Ss (good_fits _ G1) HS1 (fun l => O 63%nat l)) as D.
      match type of D with ?X -> _ => assert (K : X) end. { intros id Hid. apply P1 in Hid. assert (A : mget seq_dec rs id <> None) by (apply HK; tauto). split; [exact A|apply HH; exact A]. } specialize (D K). clear K.
      eapply rsim_bind; [exact D|]. clear D. intros h1 [s1 hp'] (Ss1 & KK1 & IV1 & CV1).
      assert (C1 : covers h1 (parties (cv c1))) by (intros id Hid; apply CV1; apply P1; exact Hid).
      match goal with |- rsim _ ?m _ => replace m with (c <- m ;; Ok c) by (destruct m; reflexivity) end.
      eapply rsim_bind; [apply (MulRelinHoistedNewSt_sim o crs pscale s1 c0 c1 (Some h) (Some hp) (Some h1) (Some hp') rs O Ss1 G0 G1); [apply (hrel_of c0)|apply (hrel_of c1)]; assumption|].
      intros c [s' c'] [EC S']. cbn [fst snd] in EC, S'. subst c'. cbn [rsim]. unfold mulpost. cbn [fst snd]. tauto.
  Qed.
  (** a party without a key: the call panics *)
  Lemma vecSt_panic level get set sel h (op : ct) rs l st id : In id l -> mget seq_dec rs id = None -> vecSt pp level get set sel h op rs l st = Panic.
  Proof.
    intros HI E. unfold vecSt. rewrite (rfold_panics _ l id HI); [reflexivity|]. intros b. destruct (digSt pp level b h op id) as [[s d]|]; cbn [rbind]; [|reflexivity]. unfold rlk_get. rewrite E. reflexivity.
  Qed.
  Lemma MulSt_panic hc (o : order) crs st (op0 op1 : ct) h0 h1 rs out id : order_ok o -> In id (parties op0) \/ In id (parties op1) -> mget seq_dec rs id = None -> MulSt hc pp o crs st op0 op1 h0 h1 rs out = Panic.
  Proof.
    intros O HI E. unfold MulSt. apply rbind_panic. intros level _. apply rbind_panic. intros l0 _. destruct (l0 <? level)%nat; [reflexivity|].
    apply rbind_panic. intros ids0 E0. apply rbind_panic. intros ids1 E1. apply rbind_panic. intros x _. apply rbind_panic. intros y _. cbv zeta.
    pose proof (ids_of_parties o _ _ _ O E0) as P0. pose proof (ids_of_parties o _ _ _ O E1) as P1. destruct HI as [HI|HI].
    - rewrite (vecSt_panic _ _ _ _ _ _ _ _ _ id); [reflexivity| |exact E]. apply (Permutation_in _ (Permutation_sym (O 2%nat _))). apply P0. exact HI.
    - apply rbind_panic. intros s _. rewrite (vecSt_panic _ _ _ _ _ _ _ _ _ id); [reflexivity| |exact E]. apply (Permutation_in _ (Permutation_sym (O 3%nat _))). apply P1. exact HI.
  Qed.
  Lemma MulRelinHoistedNewSt_panic (o : order) crs pscale st (c0 c1 : ckct N) h0 h1 rs id : order_ok o -> In id (parties (cv c0)) \/ In id (parties (cv c1)) -> mget seq_dec rs id = None ->
    MulRelinHoistedNewSt pp o crs pscale st c0 c1 h0 h1 rs = Panic.
  Proof.
    intros O HI E. unfold MulRelinHoistedNewSt. do 5 (apply rbind_panic; intros ? _; cbv zeta). unfold MulAndRelinHoistedSt. rewrite (MulSt_panic _ o crs _ _ _ _ _ rs _ id O HI E). reflexivity.
  Qed.
  Lemma MulRelinNewSt_panic (o : order) crs pscale st hp0 hp1 (c0 c1 : ckct N) same rs id : order_ok o -> In id (parties (cv c0)) \/ In id (parties (cv c1)) -> mget seq_dec rs id = None ->
    MulRelinNewSt pp o crs pscale st hp0 hp1 c0 c1 same rs = Panic.
  Proof.
    intros O HI E. unfold MulRelinNewSt. apply rbind_panic. intros ids0 _. destruct same.
    - apply rbind_panic. intros [s hp] _. rewrite (MulRelinHoistedNewSt_panic _ _ _ _ _ _ _ _ _ id O HI E). reflexivity.
    - apply rbind_panic. intros ids1 _. apply rbind_panic. intros [s hp] _. apply rbind_panic. intros [s1 hp'] _. rewrite (MulRelinHoistedNewSt_panic _ _ _ _ _ _ _ _ _ id O HI E). reflexivity.
  Qed.

  (** *** rotation and conjugation *)
  Lemma New_rows (o : list string -> list string) ids level : rowsAre (S level) (NewCiphertext o ids level : ct).
  Proof.
    unfold NewCiphertext. assert (Z : length (prows (zeroP (S level) : poly N)) = S level) by apply tab_length.
    assert (G : forall l (c : ct), rowsAre (S level) c -> rowsAre (S level) (fold_left (fun c id => cset c id (zeroP (S level))) l c)).
    { induction l as [|x l IH]; intros c H; cbn [fold_left]; [exact H|]. apply IH. apply rowsAre_cset; assumption. }
    apply G. intros id p. unfold cset. rewrite mget_mset. destruct (seq_dec id id0); [intros E; injection E as <-; exact Z|discriminate].
  Qed.
  Lemma New_uniform (o : list string -> list string) ids level : (level < nQ)%nat -> uniform pp (NewCiphertext o ids level : ct).
  Proof. intros HL l E. pose proof (New_rows o ids level) as R. rewrite (rowsAre_level _ _ _ R E). split; assumption. Qed.
  Lemma rotChainSt_sim (o : nat -> order) crs fuel : forall k r rk st (tmp out : ct), (forall n, order_ok (o n)) -> sh pp st -> uniform pp out ->
    rsim (same pp) (rotChain pp o crs fuel k r rk tmp out) (rotChainSt pp o crs fuel k r rk st tmp out).
  Proof.
    induction fuel as [|fuel IH]; intros k r rk st tmp out O SH U; cbn [rotChain rotChainSt].
    - destruct (0 <? r); cbn [rsim]; [exact I|split; [reflexivity|exact SH]].
    - destruct (0 <? r); [|cbn [rsim]; split; [reflexivity|exact SH]].
      eapply (rsim_bind (fun '(t, c) '(s, t', c') => t = t' /\ c = c' /\ sh pp s /\ uniform pp c)).
      + destruct (negb (r mod 2 =? 0)); [|cbn [rsim]; tauto].
        eapply rsim_bind; [apply (RotateSt_sim pp WF (o fuel) crs st tmp None None k rk out (O fuel) SH U); intros l _; exact I|].
        intros c [s c'] ([EC Ss] & UC). cbn [fst snd] in EC, Ss. subst c'. apply rsim_eq. intros t _. cbn [rsim]. tauto.
      + intros [t c] [[s t'] c'] (<- & <- & Ss & UC). apply IH; assumption.
  Qed.
  Lemma RotateNewSt_sim (o : nat -> order) crs st (c : ckct N) k rk : (forall n, order_ok (o n)) -> sh pp st -> fits pp (cv c) ->
    rsim ksame (RotateNew pp o crs c k rk) (RotateNewSt pp o crs st c k rk).
  Proof.
    intros O SH FT. unfold RotateNew, RotateNewSt. apply rsim_eq. intros ids _. apply rsim_eq. intros level EL. pose proof (New_uniform (o 0%nat 2%nat) ids level (FT _ EL)) as U.
    eapply (rsim_bind (same pp)).
    - unfold rotate, rotateSt. apply rsim_eq. intros z _. destruct (z =? 0).
      + destruct (Copy _ _ _) as [v|]; cbn [rsim rbind]; [split; [reflexivity|exact SH]|exact I].
      + destruct (mget Z.eq_dec crs z).
        * eapply rsim_weak; [|apply (RotateSt_sim pp WF (o 0%nat) crs st (cv c) None None z rk _ (O 0%nat) SH U); intros l _; exact I]. intros a b [X _]. exact X.
        * apply rsim_eq. intros t _. apply rotChainSt_sim; assumption.
    - intros v [s v'] [E Ss]. cbn [fst snd] in E, Ss. subst v'. cbn [rsim]. split; [reflexivity|exact Ss].
  Qed.
  Lemma RotateHoistedNewSt_sim (o : nat -> order) crs st (c : ckct N) k h hp rk : (forall n, order_ok (o n)) -> sh pp st -> good c ->
    (forall l, ctLevel (cv c) = Ok l -> hinv l h hp) -> covers h (parties (cv c)) ->
    rsim ksame (RotateHoistedNew pp o crs c k h rk) (RotateHoistedNewSt pp o crs st c k hp rk).
  Proof.
    intros O SH G IV CV. unfold RotateHoistedNew, RotateHoistedNewSt. apply rsim_eq. intros ids _. apply rsim_eq. intros level EL. cbv zeta. pose proof (New_uniform (o 0%nat 2%nat) ids level (good_fits _ G _ EL)) as U.
    eapply (rsim_bind (same pp)).
    - unfold rotateHoisted. apply rsim_eq. intros z _. destruct (z =? 0).
      + destruct (Copy _ _ _) as [v|]; cbn [rsim rbind]; [split; [reflexivity|exact SH]|exact I].
      + destruct (mget Z.eq_dec crs z); [|exact I]. unfold RotateHoisted.
        eapply rsim_weak; [|apply (RotateSt_sim pp WF (o 0%nat) crs st (cv c) (Some h) (Some hp) z rk _ (O 0%nat) SH U)]; [intros a b [X _]; exact X|].
        intros l E. rewrite (rowsAre_level _ _ _ (New_rows _ _ _) E). apply (hrel_of c); trivial. intros l0 E0. rewrite EL in E0. injection E0 as <-. lia.
    - intros v [s v'] [E Ss]. cbn [fst snd] in E, Ss. subst v'. cbn [rsim]. split; [reflexivity|exact Ss].
  Qed.
  Lemma ConjugateNewSt_sim (o : order) crs st (c : ckct N) ck : order_ok o -> sh pp st -> fits pp (cv c) ->
    rsim ksame (ConjugateNew pp o crs c ck) (ConjugateNewSt pp o crs st c ck).
  Proof.
    intros O SH FT. unfold ConjugateNew, ConjugateNewSt. apply rsim_eq. intros ids _. apply rsim_eq. intros level EL. pose proof (New_uniform (o 61%nat) ids level (FT _ EL)) as U.
    eapply rsim_bind; [apply (ConjugateSt_sim pp WF o crs st (cv c) ck _ O SH); intros l E; apply (U l E)|].
    intros v [s v'] [E Ss]. cbn [fst snd] in E, Ss. subst v'. cbn [rsim]. split; [reflexivity|exact Ss].
  Qed.

  (** *** the lifetime of an Evaluator *)
  Definition wok (w : world N) : Prop :=
    sh pp (wks w) /\ pool_ok pp (wev w) /\ hshape (wh0 w) /\ hshape (wh1 w) /\ forall id, mget seq_dec (wrs w) id <> None -> mget seq_dec (wh0 w) id <> None /\ mget seq_dec (wh1 w) id <> None.
  Definition goodop (op : evop N) : Prop :=
    match op with
    | EAdd c0 c1 | ESub c0 c1 | EMulHoisted c0 c1 => good c0 /\ good c1
    | EMul c0 c1 same => good c0 /\ good c1 /\ (same = true -> c0 = c1)
    | EMulPtxt c _ _ | ERot c _ _ | ERotHoisted c _ _ | EConj c _ => good c
    | EAddKey _ _ | EDelKey _ => True
    end.
  Lemma hkeep_wok (ks : kst) w h0 h1 : wok w -> sh pp ks -> hkeep (wh0 w) h0 -> hkeep (wh1 w) h1 -> wok (W ks (wev w) (wrs w) h0 h1).
  Proof. intros (A & B & C & D & E) S [K1 K2] [K3 K4]. unfold wok. cbn. split; [exact S|]. split; [exact B|]. split; [exact K1|]. split; [exact K3|]. intros id Hid. destruct (E id Hid). auto. Qed.
  Lemma hkeep_refl hp : hshape hp -> hkeep hp hp. Proof. intros H. split; auto. Qed.
  Definition cpost (w w' : world N) (r r' : world N * option (ckct N)) : Prop := snd r = snd r' /\ wok (fst r) /\ wok (fst r').
  Lemma ksame_join w w' (m : res (ckct N)) n n' : wok w -> wok w' -> rsim ksame m n -> rsim ksame m n' ->
    rsim (cpost w w') ('(ks, c) <- n ;; Ok (W ks (wev w) (wrs w) (wh0 w) (wh1 w), Some c)) ('(ks, c) <- n' ;; Ok (W ks (wev w') (wrs w') (wh0 w') (wh1 w'), Some c)).
  Proof.
    intros WO WO' H H'. eapply rsim_bind; [apply (rsim_join _ _ _ _ _ H H')|]. intros [s c] [s' c'] (a & [E S] & [E' S']). cbn [fst snd] in *. subst c c'. cbn [rsim]. unfold cpost. cbn [fst snd]. split; [reflexivity|].
    pose proof WO as (_ & _ & X0 & X1 & _). pose proof WO' as (_ & _ & Y0 & Y1 & _). split; apply hkeep_wok; trivial; apply hkeep_refl; assumption.
  Qed.
  Theorem call_sim crs pscale (o : nat -> order) w w' op : (forall n, order_ok (o n)) -> wok w -> wok w' -> wrs w = wrs w' -> goodop op ->
    rsim (cpost w w') (call pp crs pscale o w op) (call pp crs pscale o w' op).
  Proof.
    intros O WO WO' ER G. pose proof WO as (SH & PK & HS0 & HS1 & HK). pose proof WO' as (SH' & PK' & HS0' & HS1' & HK').
    assert (EVW : forall w ev, wok w -> pool_ok pp ev -> wok (W (wks w) ev (wrs w) (wh0 w) (wh1 w))) by (intros x ev (X1 & _ & X2 & X3 & X4) P; unfold wok; cbn; tauto).
    destruct op; cbn [call goodop] in *.
    - eapply rsim_bind; [apply (AddNew_sim (o 0%nat) (wev w) (wev w')); trivial; tauto|]. intros [s c] [s' c'] (E & Q & Q'). cbn [fst snd] in *. subst c'. cbn [rsim]. unfold cpost. cbn [fst snd]. split; [reflexivity|]. split; apply EVW; assumption.
    - eapply rsim_bind; [apply (SubNew_sim (o 0%nat) (wev w) (wev w')); trivial; tauto|]. intros [s c] [s' c'] (E & Q & Q'). cbn [fst snd] in *. subst c'. cbn [rsim]. unfold cpost. cbn [fst snd]. split; [reflexivity|]. split; apply EVW; assumption.
    - eapply rsim_bind; [apply (MulPtxtNew_sim (o 0%nat) pscale (wev w) (wev w')); trivial|]. intros [s c'] [s' c''] (E & Q & Q'). cbn [fst snd] in *. subst c''. cbn [rsim]. unfold cpost. cbn [fst snd]. split; [reflexivity|]. split; apply EVW; assumption.
    - destruct G as (G0 & G1 & SM).
      assert (DEC : (forall id, In id (parties (cv c0)) \/ In id (parties (cv c1)) -> mget seq_dec (wrs w) id <> None) \/ exists id, (In id (parties (cv c0)) \/ In id (parties (cv c1))) /\ mget seq_dec (wrs w) id = None).
      { assert (X : forall l, (forall id, In id l -> mget seq_dec (wrs w) id <> None) \/ exists id, In id l /\ mget seq_dec (wrs w) id = None).
        { induction l as [|x l [IH|(y & Hy & Ey)]]; [left; intros id []| |right; exists y; split; [right; exact Hy|exact Ey]].
          destruct (mget seq_dec (wrs w) x) eqn:E; [left; intros id [<-|Hid]; [congruence|apply IH; exact Hid]|right; exists x; split; [left; reflexivity|exact E]]. }
        destruct (X (parties (cv c0) ++ parties (cv c1))) as [A|(y & Hy & Ey)]; [left; intros id Hid; apply A; apply in_or_app; exact Hid|right; exists y; split; [apply in_app_or; exact Hy|exact Ey]]. }
      destruct DEC as [DEC|(id & Hid & Eid)].
      + rewrite <- ER in *. eapply rsim_bind; [apply (rsim_join _ _ _ _ _ (MulRelinNewSt_sim (o 0%nat) crs pscale (wks w) (wh0 w) (wh1 w) c0 c1 same (wrs w) (O 0%nat) SH HS0 HS1 G0 G1 SM HK DEC) (MulRelinNewSt_sim (o 0%nat) crs pscale (wks w') (wh0 w') (wh1 w') c0 c1 same (wrs w) (O 0%nat) SH' HS0' HS1' G0 G1 SM HK' DEC))|].
        intros [[[s h0] h1] c] [[[s' h0'] h1'] c'] (a & (E & S1 & K0 & K1) & (E' & S1' & K0' & K1')). cbn [fst snd] in *. subst c c'. cbn [rsim]. unfold cpost. cbn [fst snd]. split; [reflexivity|].
        split; [apply hkeep_wok; assumption|]. rewrite ER. apply hkeep_wok; assumption.
      + rewrite (MulRelinNewSt_panic (o 0%nat) crs pscale (wks w) _ _ c0 c1 same (wrs w) id (O 0%nat) Hid Eid). rewrite ER in Eid. rewrite (MulRelinNewSt_panic (o 0%nat) crs pscale (wks w') _ _ c0 c1 same (wrs w') id (O 0%nat) Hid Eid). exact I.
    - destruct G as (G0 & G1).
      eapply rsim_bind; [apply (rsim_join _ _ _ _ _ (HoistedFormSt_sim (o 1%nat) (wks w) c0 (O 1%nat) SH (good_fits _ G0)) (HoistedFormSt_sim (o 1%nat) (wks w') c0 (O 1%nat) SH' (good_fits _ G0)))|].
      intros [s hp] [s' hp'] (h & (Q1 & Q2 & Q3) & (Q1' & Q2' & Q3')).
      eapply rsim_bind; [apply (rsim_join _ _ _ _ _ (HoistedFormSt_sim (o 2%nat) s c1 (O 2%nat) Q1 (good_fits _ G1)) (HoistedFormSt_sim (o 2%nat) s' c1 (O 2%nat) Q1' (good_fits _ G1)))|].
      intros [s1 hp1] [s1' hp1'] (h1 & (U1 & U2 & U3) & (U1' & U2' & U3')).
      apply (ksame_join w w' (MulRelinHoistedNew pp (o 0%nat) crs pscale c0 c1 (Some h) (Some h1) (wrs w))); trivial.
      + apply MulRelinHoistedNewSt_sim; trivial; [apply (hrel_of c0)|apply (hrel_of c1)]; assumption.
      + rewrite ER. apply MulRelinHoistedNewSt_sim; trivial; [apply (hrel_of c0)|apply (hrel_of c1)]; assumption.
    - apply (ksame_join w w' (RotateNew pp o crs c k rk)); trivial; apply RotateNewSt_sim; trivial; apply good_fits; assumption.
    - eapply rsim_bind; [apply (rsim_join _ _ _ _ _ (HoistedFormSt_sim (o 1%nat) (wks w) c (O 1%nat) SH (good_fits _ G)) (HoistedFormSt_sim (o 1%nat) (wks w') c (O 1%nat) SH' (good_fits _ G)))|].
      intros [s hp] [s' hp'] (h & (Q1 & Q2 & Q3) & (Q1' & Q2' & Q3')).
      apply (ksame_join w w' (RotateHoistedNew pp o crs c k h rk)); trivial; apply RotateHoistedNewSt_sim; trivial.
    - apply (ksame_join w w' (ConjugateNew pp (o 0%nat) crs c ck)); trivial; apply ConjugateNewSt_sim; trivial; try apply good_fits; trivial.
    - cbn [rsim]. unfold cpost. cbn [fst snd]. split; [reflexivity|].
      assert (X : forall x, wok x -> wok (W (wks x) (wev x) (mset seq_dec (wrs x) id key) (mset seq_dec (wh0 x) id (newSwk pp)) (mset seq_dec (wh1 x) id (newSwk pp)))).
      { intros x (X1 & X2 & X3 & X4 & X5). unfold wok, hshape. cbn. split; [exact X1|]. split; [exact X2|]. split; [|split].
        - intros y d. rewrite mget_mset. destruct (seq_dec y id); [intros E; injection E as <-; apply shS_new|apply X3].
        - intros y d. rewrite mget_mset. destruct (seq_dec y id); [intros E; injection E as <-; apply shS_new|apply X4].
        - intros y. rewrite !mget_mset. destruct (seq_dec y id); [split; discriminate|apply X5]. }
      split; apply X; assumption.
    - cbn [rsim]. unfold cpost. cbn [fst snd]. split; [reflexivity|].
      assert (X : forall x, wok x -> wok (W (wks x) (wev x) (mdel seq_dec (wrs x) id) (wh0 x) (wh1 x))).
      { intros x (X1 & X2 & X3 & X4 & X5). unfold wok. cbn. split; [exact X1|]. split; [exact X2|]. split; [exact X3|]. split; [exact X4|]. intros y. rewrite mget_mdel. destruct (seq_dec y id); [congruence|apply X5]. }
      split; apply X; assumption.
  Qed.
  Lemma newWorld_ok : wok (newWorld pp).
  Proof.
    unfold wok, newWorld, hshape. cbn [wks wev wrs wh0 wh1]. split; [apply sh_new|]. split; [|split; [discriminate|split; [discriminate|intros id H; destruct (H eq_refl)]]].
    unfold pool_ok, NewEvaluator. cbn [ctxtPool polyQPool]. rewrite tab_length. split; [|reflexivity]. split; [|split; [left; reflexivity|]].
    - apply (mwf_mset seq_dec nil). constructor.
    - intros x [<-|[]]. split; [apply tab_length|reflexivity].
  Qed.
End Sim.
