(** Proofs about the calls of EvShareAll.v: no step changes the sizes of the shared buffers, whatever other calls have left in them. *)
From Flocq Require Import Core BinarySingleNaN.
From Verif Require Import Base IdSetModel IdSetProofs KeySetModel NumTheory Negacyclic Ntt Word FloatModel CkksFloat BasisExt BasisExtProofs Rows RlweModel KeyGenModel Galois SchemeSpec CtModel CtSpec CtProofs EncDecProofs Digits KeySwitchModel CkksModel CkksProofs KsPool KsPoolProofs EvalPool EvalPoolProofs ShareModel PropsShare EvShare EvShareProofs EvShareAll EvShareAllProofs.
Open Scope Z_scope.

Section Safe.
  Context {N : nat} (pp : rparams) (WF : wfp N pp).
  Notation R := (R N). Notation ct := (ctT N). Notation kst := (kst N). Notation world := (world N). Notation nQ := (length (Qm pp)).
  Variable rs : rlkset N.
  (** buffers of the size they were made with, and one HoistPool buffer per key *)
  Definition winv (w : world) : Prop := wok pp w /\ wrs w = rs.
  Notation safe := (psafe winv).
  Lemma winv_setK (w : world) (s : kst) : winv w -> sh pp s -> winv (setK w s).
  Proof. intros [WO E] S. split; [|exact E]. pose proof WO as (_ & _ & H0 & H1 & _). apply (hkeep_wok pp s w); trivial; apply hkeep_refl; assumption. Qed.
  Lemma winv_setV (w : world) (e : evalst N) : winv w -> pool_ok pp e -> winv (setV w e).
  Proof. intros [(A & _ & B) E] S. split; [|exact E]. split; [exact A|]. split; [exact S|exact B]. Qed.
  Lemma winv_setH second (w : world) id d : winv w -> shS pp d -> winv (setH second w (mset seq_dec (hpool second w) id d)).
  Proof.
    intros [(A & B & H0 & H1 & C) E] S. split; [|destruct second; exact E].
    assert (HS : forall h : hoisted N, hshape pp h -> hshape pp (mset seq_dec h id d)) by (intros h HH x dd; rewrite mget_mset; destruct (seq_dec x id); [intros X; injection X as <-; exact S|apply HH]).
    assert (HC : forall (h : hoisted N) x, mget seq_dec h x <> None -> mget seq_dec (mset seq_dec h id d) x <> None) by (intros h x Hx; rewrite mget_mset; destruct (seq_dec x id); [discriminate|exact Hx]).
    destruct second; (split; [exact A|]; split; [exact B|]; cbn [setH hpool wh0 wh1 wrs]); (split; [auto|]; split; [auto|]; intros x Hx; destruct (C x Hx); auto).
  Qed.
  Lemma ksafe {A} (Q : A -> Prop) (f : world -> res (kst * A)) : (forall w s a, winv w -> f w = Ok (s, a) -> sh pp s /\ Q a) -> safe Q (kact f).
  Proof. intros H. apply psafe_act. intros w w' a I E. destruct (f w) as [[s b]|] eqn:EF; cbn [rbind] in E; [|discriminate]. assert (setK w s = w' /\ b = a) as [<- <-] by (split; congruence). destruct (H w s b I EF). split; [apply winv_setK; assumption|assumption]. Qed.
  Lemma kset_safe (f : kst -> kst) : (forall st, sh pp st -> sh pp (f st)) -> safe (fun _ => True) (kset f).
  Proof. intros H. apply ksafe. intros w s a [WO _] E. assert (f (wks w) = s) as <- by congruence. split; [apply H; apply WO|exact Logic.I]. Qed.
  Lemma vsafe {A} (Q : A -> Prop) (f : evalst N -> res (evalst N * A)) : (forall (e e' : evalst N) a, pool_ok pp e -> f e = Ok (e', a) -> pool_ok pp e' /\ Q a) -> safe Q (vact f).
  Proof. intros H. apply psafe_act. intros w w' a I E. destruct (f (wev w)) as [[s b]|] eqn:EF; cbn [rbind] in E; [|discriminate]. assert (setV w s = w' /\ b = a) as [<- <-] by (split; congruence). assert (P : pool_ok pp (wev w)) by apply I. destruct (H _ s b P EF). split; [apply winv_setV; assumption|assumption]. Qed.
  Lemma rsafe {A B} (Q : B -> Prop) (r : res A) (f : A -> proc world B) : (forall a, r = Ok a -> safe Q (f a)) -> safe Q (pbind (pres r) f).
  Proof. intros H. apply (psafe_bind _ (fun a => r = Ok a)); [apply psafe_pres; trivial|exact H]. Qed.
  Lemma bsafe {A B} (Q : B -> Prop) (p : proc world A) (f : A -> proc world B) : safe (fun _ => True) p -> (forall a, safe Q (f a)) -> safe Q (pbind p f).
  Proof. intros H F. apply (psafe_bind _ (fun _ => True)); [exact H|]. intros a _. apply F. Qed.
  Lemma fsafe {A B} (f : A -> B -> proc world A) l a : (forall a x, safe (fun _ => True) (f a x)) -> safe (fun _ => True) (pfold f l a).
  Proof. intros H. apply psafe_fold; [exact Logic.I|]. intros; apply H. Qed.
  Lemma psafe_liftK {A} (Q : A -> Prop) (p : proc kst A) : psafe (sh pp) Q p -> safe Q (liftK p).
  Proof.
    induction p as [a| |f IH] using proc_induct; cbn [liftK psafe]; trivial. intros H w Iw. assert (S : sh pp (wks w)) by apply Iw. specialize (H _ S). specialize (IH (wks w)). destruct (f (wks w)) as [s p']. cbn [snd] in IH. destruct H as [H1 H2]. split; [apply winv_setK; assumption|apply IH; exact H2].
  Qed.

  (** *** the KeySwitcher *)
  Lemma wrQP_sh level new (d : polyQP N) : shQP pp d -> shQP pp (wrQP pp level new d).
  Proof. intros [A B]. split; cbn [wrQP qpQ qpP]; rewrite wr_length; assumption. Qed.
  Lemma updPre_sh level G (s s' : swk N) : (level < nQ)%nat -> shS pp s -> (forall i o o', shQP pp o -> G i o = Ok o' -> shQP pp o') -> updPre (beta pp level) G s = Ok s' -> shS pp s'.
  Proof.
    intros HL [LS SS] H. pose proof (beta_max pp WF level HL) as BM. unfold updPre. destruct (rmapM _ (seq 0 (beta pp level))) as [new|] eqn:EM; cbn [rbind]; [|discriminate]. intros E. assert (EZ : new ++ skipn (beta pp level) s = s') by congruence. rewrite <- EZ.
    pose proof (rmapM_len _ _ _ EM) as LN. rewrite seq_length in LN. split; [rewrite app_length, skipn_length; lia|]. intros d Hd. apply in_app_or in Hd as [Hd|Hd]; [|apply SS; apply (In_skipn _ _ _ Hd)].
    clear - EM H SS Hd WF. revert new EM Hd. induction (seq 0 (beta pp level)) as [|i l IH]; intros new EM Hd; cbn [rmapM] in EM; [injection EM as <-; destruct Hd|].
    destruct (idx s i) as [o|] eqn:EI; cbn [rbind] in EM; [|discriminate]. destruct (G i o) as [o'|] eqn:EG; cbn [rbind] in EM; [|discriminate]. destruct (rmapM _ l) as [r|] eqn:EL; cbn [rbind] in EM; [|discriminate]. injection EM as <-.
    destruct Hd as [<-|Hd]; [|apply (IH r eq_refl Hd)]. apply (H i o o'); [|exact EG]. apply SS. unfold idx in EI. destruct (nth_error s i) eqn:EN; [|discriminate]. injection EI as <-. apply (nth_error_In _ _ EN).
  Qed.
  Lemma sh_q0 level e (s : kst) : sh pp s -> sh pp (setq0 s (wrP level e (kq0 s))).
  Proof. intros H. pose proof (shq_wrP pp level e (kq0 s)). unfold sh in H |- *. cbn. tauto. Qed.
  Lemma sh_q1 level e (s : kst) : sh pp s -> sh pp (setq1 s (wrP level e (kq1 s))).
  Proof. intros H. pose proof (shq_wrP pp level e (kq1 s)). unfold sh in H |- *. cbn. tauto. Qed.
  Lemma sh_q2 level e (s : kst) : sh pp s -> sh pp (setq2 s (wrP level e (kq2 s))).
  Proof. intros H. pose proof (shq_wrP pp level e (kq2 s)). unfold sh in H |- *. cbn. tauto. Qed.
  Lemma sh_s1 (s : kst) x : sh pp s -> shS pp x -> sh pp (sets1 s x). Proof. unfold sh. cbn. tauto. Qed.
  Lemma sh_s2 (s : kst) x : sh pp s -> shS pp x -> sh pp (sets2 s x). Proof. unfold sh. cbn. tauto. Qed.
  Lemma sh_s3 (s : kst) x : sh pp s -> shS pp x -> sh pp (sets3 s x). Proof. unfold sh. cbn. tauto. Qed.
  Lemma ExtH_sh level (st : kst) a b s e : (level < nQ)%nat -> sh pp st -> ExtHSt pp level st a b = Ok (s, e) -> sh pp s.
  Proof.
    intros HL SH E. pose proof (ExtHSt_sim pp WF level st a a b b HL SH (drel_refl _ _ _) (drel_refl _ _ _)) as S. rewrite E in S. unfold rsim in S. destruct (ExternalProductHoisted pp level a b) as [x|]; [|contradiction]. apply (extPost_sh pp level st x (s, e) SH S).
  Qed.
  Lemma Dec_sh level (st : kst) p dst s d : (level < nQ)%nat -> sh pp st -> shS pp dst -> DecSt pp level st p dst = Ok (s, d) -> sh pp s /\ shS pp d.
  Proof.
    intros HL SH SD E. pose proof (DecSt_sim pp WF level st p p dst HL SH SD (prel_refl _ _)) as S. rewrite E in S. unfold rsim in S. destruct (Decompose pp level p) as [x|]; [|contradiction]. destruct S as ((r & Lr & ->) & _ & S1 & _). split; [apply setE_sh; assumption|exact S1].
  Qed.
  Ltac kz := let w := fresh "w" in let s := fresh "s" in let a := fresh "a" in let I := fresh "I" in let E := fresh "E" in intros w s a I E; assert (SHW : sh pp (wks w)) by apply I.
  Lemma read_safe {A} (f : world -> res A) : safe (fun _ => True) (kact (fun w => c <- f w ;; Ok (wks w, c))).
  Proof. apply ksafe. kz. destruct (f w) as [c|]; cbn [rbind] in E; [|discriminate]. assert (wks w = s) as <- by congruence. split; [exact SHW|exact Logic.I]. Qed.
  Lemma vecP_safe level get set sel hs l : (level < nQ)%nat -> (forall st, sh pp st -> shS pp (get st)) -> (forall st x, sh pp st -> shS pp x -> sh pp (set st x)) -> safe (fun _ => True) (vecP pp level get set sel hs l).
  Proof.
    intros HL HG HS. unfold vecP. apply bsafe.
    - apply fsafe. intros [] id. apply ksafe. kz. destruct (hget (hs w) id) as [ds|]; cbn [rbind] in E; [|discriminate]. destruct (rlk_get (wrs w) id) as [k|]; cbn [rbind] in E; [|discriminate].
      destruct (updPre _ _ _) as [x|] eqn:EU; cbn [rbind] in E; [|discriminate]. assert (set (wks w) x = s) as <- by congruence. split; [|exact Logic.I]. apply HS; [exact SHW|]. apply (updPre_sh level _ _ _ HL (HG _ SHW)) in EU; [exact EU|].
      intros i o o' SO. destruct (idx (sel k) i) as [kk|]; cbn [rbind]; [|discriminate]. destruct (idx ds i) as [d|]; cbn [rbind]; [|discriminate]. intros E1. injection E1 as <-. apply wrQP_sh. exact SO.
    - intros _. apply ksafe. kz. destruct (updPre _ _ _) as [x|] eqn:EU; cbn [rbind] in E; [|discriminate]. assert (set (wks w) x = s) as <- by congruence. split; [|exact Logic.I]. apply HS; [exact SHW|]. apply (updPre_sh level _ _ _ HL (HG _ SHW)) in EU; [exact EU|].
      intros i o o' SO E1. injection E1 as <-. apply wrQP_sh. exact SO.
  Qed.
  Lemma prodP_safe level o (op0 op1 : ct) ids0 ids1 out : safe (fun _ => True) (prodP pp level o op0 op1 ids0 ids1 out).
  Proof.
    unfold prodP. apply rsafe. intros a0 _. apply bsafe; [apply kset_safe; intros; apply sh_q0; assumption|]. intros _. apply rsafe. intros b0 _. apply bsafe; [apply kset_safe; intros; apply sh_q1; assumption|]. intros _.
    apply bsafe; [apply kset_safe; intros; apply sh_q0; assumption|]. intros _. apply bsafe; [apply read_safe|]. intros out1. apply bsafe; [apply kset_safe; intros; apply sh_q1; assumption|]. intros _.
    apply bsafe; [apply fsafe; intros c id; apply rsafe; intros p _; apply bsafe; [apply kset_safe; intros; apply sh_q2; assumption|intros _; apply read_safe]|]. intros out2.
    apply bsafe; [apply fsafe; intros c id; apply rsafe; intros p _; apply bsafe; [apply kset_safe; intros; apply sh_q2; assumption|intros _; apply read_safe]|]. intros out3. apply psafe_pres. trivial.
  Qed.
  Lemma extq0_safe level (d : world -> res (swk N)) (b : kst -> swk N) : (level < nQ)%nat -> safe (fun _ => True) (kact (fun w => d <- d w ;; '(st, e) <- ExtHSt pp level (wks w) d (b (wks w)) ;; Ok (setq0 st (wrP level e (kq0 st)), tt))).
  Proof.
    intros HL. apply ksafe. kz. destruct (d w) as [dd|]; cbn [rbind] in E; [|discriminate]. destruct (ExtHSt pp level (wks w) dd (b (wks w))) as [[st e]|] eqn:EE; cbn [rbind] in E; [|discriminate]. assert (EZ : setq0 st (wrP level e (kq0 st)) = s) by congruence. rewrite <- EZ.
    split; [|exact Logic.I]. apply sh_q0. apply (ExtH_sh _ _ _ _ _ _ HL SHW EE).
  Qed.
  Lemma xP_safe level o hs1 ids1 (out : ct) : (level < nQ)%nat -> safe (fun _ => True) (xP pp level o hs1 ids1 out).
  Proof. intros HL. unfold xP. apply fsafe. intros c id. apply bsafe; [apply (extq0_safe level (fun w => hget (hs1 w) id) ks1 HL)|]. intros _. apply rsafe. intros q _. apply read_safe. Qed.
  Lemma vhP_safe level o crs hs0 ids0 (out : ct) : (level < nQ)%nat -> safe (fun _ => True) (vhP pp level o crs hs0 ids0 out).
  Proof.
    intros HL. unfold vhP. apply fsafe. intros c id. apply bsafe; [apply read_safe|]. intros k. apply bsafe; [apply (extq0_safe level (fun w => hget (hs0 w) id) ks2 HL)|]. intros _.
    apply bsafe.
    { apply ksafe. kz. destruct (DecSt pp level (wks w) (kq0 (wks w)) (ks3 (wks w))) as [[st d]|] eqn:ED; cbn [rbind] in E; [|discriminate]. assert (sets3 st d = s) as <- by congruence. split; [|exact Logic.I].
      assert (S3 : shS pp (ks3 (wks w))) by (unfold sh in SHW; tauto). destruct (Dec_sh _ _ _ _ _ _ HL SHW S3 ED). apply sh_s3; assumption. }
    intros _. apply bsafe.
    { apply ksafe. kz. destruct (ExtHSt pp level (wks w) (ks3 (wks w)) (rlk_v k)) as [[st e]|] eqn:EE; cbn [rbind] in E; [|discriminate]. assert (EZ : setq1 st (wrP level e (kq1 st)) = s) by congruence. rewrite <- EZ. split; [|exact Logic.I]. apply sh_q1. apply (ExtH_sh _ _ _ _ _ _ HL SHW EE). }
    intros _. apply rsafe. intros q0 _. apply bsafe; [apply read_safe|]. intros c1. apply rsafe. intros u _. apply bsafe.
    { apply ksafe. kz. destruct (ExtHSt pp level (wks w) (ks3 (wks w)) u) as [[st e]|] eqn:EE; cbn [rbind] in E; [|discriminate]. assert (EZ : setq2 st (wrP level e (kq2 st)) = s) by congruence. rewrite <- EZ. split; [|exact Logic.I]. apply sh_q2. apply (ExtH_sh _ _ _ _ _ _ HL SHW EE). }
    intros _. apply rsafe. intros q _. apply read_safe.
  Qed.
  Lemma MulP_safe o crs (op0 op1 out : ct) hs0 hs1 : fits pp out -> safe (fun _ => True) (MulP pp o crs op0 op1 hs0 hs1 out).
  Proof.
    intros FT. unfold MulP. apply rsafe. intros level EL. pose proof (FT _ EL) as HL. apply rsafe. intros l0 _. destruct (l0 <? level)%nat; [exact Logic.I|]. apply rsafe. intros ids0 _. apply rsafe. intros ids1 _.
    apply bsafe.
    { apply ksafe. kz. assert (S1 : shS pp (ks1 (wks w))) by (unfold sh in SHW; tauto). destruct (zeroSt_ok pp WF level _ HL S1) as (x & EX & SX & _). rewrite EX in E. cbn [rbind] in E. assert (sets1 (wks w) x = s) as <- by congruence. split; [apply sh_s1; assumption|exact Logic.I]. }
    intros _. apply bsafe.
    { apply ksafe. kz. assert (S1 : shS pp (ks2 (wks w))) by (unfold sh in SHW; tauto). destruct (zeroSt_ok pp WF level _ HL S1) as (x & EX & SX & _). rewrite EX in E. cbn [rbind] in E. assert (sets2 (wks w) x = s) as <- by congruence. split; [apply sh_s2; assumption|exact Logic.I]. }
    intros _. apply bsafe; [apply vecP_safe; [exact HL|unfold sh; tauto|exact sh_s1]|]. intros _. apply bsafe; [apply vecP_safe; [exact HL|unfold sh; tauto|exact sh_s2]|]. intros _.
    apply bsafe; [apply prodP_safe|]. intros out1. apply bsafe; [apply xP_safe; exact HL|]. intros out2. apply vhP_safe. exact HL.
  Qed.
  Lemma MulRelinHoistedNewP_safe o crs pscale (c0 c1 : ckct N) hs0 hs1 : order_ok o -> good pp c0 -> good pp c1 -> safe (fun _ => True) (MulRelinHoistedNewP pp o crs pscale c0 c1 hs0 hs1).
  Proof.
    intros O (l0 & H0 & S0) (l1 & H1 & S1). unfold MulRelinHoistedNewP. destruct (newBinary_ok pp WF o c0 c1 l0 l1 O H0 H1 S0 S1) as (v & -> & Wv & Kv). cbn [pres pbind cv].
    rewrite (shape_level _ _ S0), (shape_level _ _ S1), (wfct_level pp _ _ _ Wv). cbn [pres pbind]. cbv zeta. rewrite Nat.min_id, Nat.ltb_irrefl. cbn [pres pbind cv].
    apply bsafe; [apply MulP_safe; intros l E; rewrite (wfct_level pp _ _ _ Wv) in E; assert (Nat.min l0 l1 = l) by congruence; lia|]. intros x. apply psafe_pres. trivial.
  Qed.
  Lemma hoistP_safe (o : list string -> list string) second (c : ckct N) ids : fits pp (cv c) -> safe (fun _ => True) (hoistP pp o second c ids).
  Proof.
    intros FT. unfold hoistP. apply rsafe. intros level EL. pose proof (FT _ EL) as HL. apply fsafe. intros [] id. apply rsafe. intros p _. apply psafe_act. intros w w' a I E. destruct (hget (hpool second w) id) as [b|] eqn:EB; cbn [rbind] in E; [|discriminate].
    destruct (DecSt pp level (wks w) p b) as [[st d]|] eqn:ED; cbn [rbind] in E; [|discriminate]. assert (EZ : setH second (setK w st) (mset seq_dec (hpool second w) id d) = w') by congruence. rewrite <- EZ. split; [|exact Logic.I].
    assert (SB : shS pp b). { unfold hget in EB. destruct (mget seq_dec (hpool second w) id) as [b'|] eqn:EM; [|discriminate]. injection EB as <-. destruct I as [(_ & _ & A & B & _) _]. destruct second; [apply (B id b' EM)|apply (A id b' EM)]. }
    assert (SHW : sh pp (wks w)) by apply I. destruct (Dec_sh _ _ _ _ _ _ HL SHW SB ED) as [S1 S2]. pose proof (winv_setH second (setK w st) id d (winv_setK w st I S1) S2) as X. destruct second; exact X.
  Qed.
  Lemma HoistedFormP_safe o (c : ckct N) : fits pp (cv c) -> safe (fun _ => True) (HoistedFormP pp o c).
  Proof.
    intros FT. unfold HoistedFormP. apply rsafe. intros ids _. apply rsafe. intros level EL. pose proof (FT _ EL) as HL. apply fsafe. intros h id. apply rsafe. intros p _. apply ksafe. kz.
    destruct (DecSt pp level (wks w) p (newSwk pp)) as [[st d]|] eqn:ED; cbn [rbind] in E; [|discriminate]. assert (st = s) by congruence. subst s. destruct (Dec_sh _ _ _ _ _ _ HL SHW (@shS_new N pp) ED). split; [assumption|exact Logic.I].
  Qed.
  Lemma MulRelinNewP_safe o crs pscale (c0 c1 : ckct N) same : order_ok o -> good pp c0 -> good pp c1 -> safe (fun _ => True) (MulRelinNewP pp o crs pscale c0 c1 same).
  Proof.
    intros O G0 G1. unfold MulRelinNewP. apply rsafe. intros ids0 _. destruct same.
    - apply bsafe; [apply hoistP_safe; apply good_fits; exact G0|]. intros _. apply MulRelinHoistedNewP_safe; assumption.
    - apply rsafe. intros ids1 _. apply bsafe; [apply hoistP_safe; apply good_fits; exact G0|]. intros _. apply bsafe; [apply hoistP_safe; apply good_fits; exact G1|]. intros _. apply MulRelinHoistedNewP_safe; assumption.
  Qed.

  (** *** the Evaluator's pools *)
  Lemma wrLvl_len level (new old r : list R) : length new = S level -> wrLvl level new old = Ok r -> length r = length old.
  Proof. intros L. unfold wrLvl. destruct (Nat.leb_spec (length old) level); [discriminate|]. intros E. assert (EZ : firstn (S level) new ++ skipn (S level) old = r) by congruence. rewrite <- EZ, app_length, firstn_length, skipn_length. lia. Qed.
  Lemma vread_safe {A} (f : evalst N -> res A) : safe (fun _ => True) (vact (fun e => c <- f e ;; Ok (e, c))).
  Proof. apply vsafe. intros e e' a P E. destruct (f e) as [c|]; cbn [rbind] in E; [|discriminate]. assert (e = e') as <- by congruence. split; [exact P|exact Logic.I]. Qed.
  Lemma shape_cset n (c : ct) id p q : shape n c -> cget c id = Ok p -> length (prows q) = length (prows p) -> pntt q = pntt p -> shape n (cset c id q).
  Proof.
    intros (W & I0 & Sh) EG LQ FQ. assert (IK : In id (keys c)) by (apply (mget_In_keys seq_dec); unfold cget in EG; destruct (mget seq_dec c id); [discriminate|discriminate]).
    assert (CP : comp c id = p) by (rewrite cget_comp in EG by exact IK; congruence). destruct (Sh id IK) as [L1 F1]. rewrite CP in L1, F1.
    split; [apply (mwf_mset seq_dec); exact W|]. assert (KK : forall x, In x (keys (cset c id q)) <-> In x (keys c)).
    { intros x. rewrite <- !(mget_In_keys seq_dec). unfold cset. rewrite mget_mset. destruct (seq_dec x id) as [->|]; [|tauto]. rewrite (mget_In_keys seq_dec). split; [intros _; exact IK|discriminate]. }
    split; [apply KK; exact I0|]. intros x Hx. apply KK in Hx. unfold comp, cset. rewrite mget_mset. destruct (seq_dec x id) as [->|]; [split; congruence|apply Sh; exact Hx].
  Qed.
  Lemma MulPtxtNewP_safe o pscale (c : ckct N) pt ps : safe (fun _ => True) (MulPtxtNewP pp o pscale c pt ps).
  Proof.
    unfold MulPtxtNewP. apply rsafe. intros ids _. apply rsafe. intros level _. cbv zeta. destruct (_ <=? level)%nat; [exact Logic.I|].
    assert (WR : forall f : evalst N -> list R, (forall e, length (f e) = S level) -> safe (fun _ => True) (vact (fun e => q <- wrLvl level (f e) (polyQPool e) ;; Ok (EV (ctxtPool e) q, tt)))).
    { intros f Lf. apply vsafe. intros e e' a [P1 P2] E. destruct (wrLvl level (f e) (polyQPool e)) as [q|] eqn:EW; cbn [rbind] in E; [|discriminate]. assert (EV (ctxtPool e) q = e') as <- by congruence. split; [|exact Logic.I]. split; [exact P1|]. cbn [polyQPool]. rewrite (wrLvl_len _ _ _ _ (Lf e) EW). exact P2. }
    apply bsafe; [apply (WR (fun _ => lvlQ1 pp level ntt (prows pt))); intros; apply lvlQ1_len|]. intros _. apply bsafe; [apply (WR (fun e => lvlQ1 pp level r_mform (polyQPool e))); intros; apply lvlQ1_len|]. intros _.
    apply bsafe; [|intros v; apply psafe_pres; trivial]. apply fsafe. intros v id. apply rsafe. intros p _. apply rsafe. intros q _.
    apply (vread_safe (fun e => Ok (cset v id (Pol (lvlQ1 pp level intt (lvlQ2 pp level r_mont (lvlQ1 pp level ntt (prows p)) (polyQPool e))) (pntt q))))).
  Qed.
  Lemma multP_safe (o : list string -> list string) (c0 : ckct N) k : safe (fun _ => True) (multP pp o c0 k).
  Proof.
    unfold multP. apply rsafe. intros l0 _. apply bsafe; [apply (vread_safe (fun e => ctLevel (ctxtPool e)))|]. intros lo. cbv zeta. destruct (getConstAndScale pp (Nat.min l0 lo) k) as [[cR cI] scale]. apply rsafe. intros cs _.
    apply fsafe. intros [] id. apply rsafe. intros p0 _. apply vsafe. intros e e' a [P1 P2] E. destruct (cget (ctxtPool e) id) as [p1|] eqn:EG; cbn [rbind] in E; [|discriminate]. destruct (wrLvl _ _ _) as [r|] eqn:EW; cbn [rbind] in E; [|discriminate].
    assert (EZ : EV (cset (ctxtPool e) id (Pol r (pntt p1))) (polyQPool e) = e') by congruence. rewrite <- EZ. split; [|exact Logic.I]. split; [|exact P2]. cbn [ctxtPool]. apply (shape_cset _ _ id p1); trivial. cbn [prows]. apply (wrLvl_len _ _ _ _ (tab_length _ _) EW).
  Qed.
  Lemma evalP_safe (o : order) (c0 c1 out : ckct N) ev : order_ok o -> safe (fun _ => True) (evalP pp o c0 c1 out ev).
  Proof.
    intros O. unfold evalP. apply rsafe. intros ids0 E0. apply rsafe. intros ids1 E1. apply rsafe. intros ids EU. apply bsafe.
    { apply vsafe. intros e e' a [P1 P2] E.
      assert (NI : ~ In id0 (keys ids)).
      { destruct (IDSetOf_ok (o 0%nat) (cv c0)) as (i0 & A0 & M0 & B0); [intros l; apply O|]. destruct (IDSetOf_ok (o 1%nat) (cv c1)) as (i1 & A1 & M1 & B1); [intros l; apply O|]. assert (i0 = ids0 /\ i1 = ids1) as [-> ->] by (split; congruence).
        assert (RP : forall (i : idset) (c : ct), mwf i -> (forall x, is_has i x = true <-> x <> id0 /\ In x (keys c)) -> IdSetProofs.rep i (fun x => x <> id0 /\ In x (keys c))).
        { intros i c M B. assert (X : forall x, In x (keys i) <-> x <> id0 /\ In x (keys c)) by (intros x; rewrite <- (B x); unfold is_has; rewrite mhas_In; reflexivity).
          split; [assumption|]. split; [rewrite X; tauto|exact X]. }
        destruct (rep_union o O 2 ids0 _ ids1 _ (RP _ _ M0 B0) (RP _ _ M1 B1)) as (i & AU & RU). assert (i = ids) by congruence. subst i. apply RU. }
      destruct (pad_shape (fun n => o (10 + n)%nat) (maxLevel pp) (ctxtPool e) ids) as (pool & AP & SPl & _); [intros n l; apply O|exact P1|exact NI|]. rewrite AP in E. cbn [rbind] in E. assert (EV pool (polyQPool e) = e') as <- by congruence. split; [|exact Logic.I]. split; assumption. }
    intros _. apply rsafe. intros l0 _. apply rsafe. intros l1 _. apply rsafe. intros lo _. cbv zeta. apply rsafe. intros out1 _. apply bsafe.
    { destruct (f_gt (csc c1) (csc c0) && _); [|destruct (f_gt (csc c0) (csc c1) && _)]; [apply bsafe; [apply multP_safe|intros; exact Logic.I]..|exact Logic.I]. }
    intros t. set (level := Nat.min (Nat.min l0 l1) lo). apply bsafe.
    { apply vsafe. intros e e' a P E.
      destruct (cgetL (if fst t then ctxtPool e else cv c0) id0 level) as [a0|]; cbn [rbind] in E; [|discriminate]. destruct (cgetL (if snd t then ctxtPool e else cv c1) id0 level) as [b0|]; cbn [rbind] in E; [|discriminate].
      destruct (cget (cv out1) id0) as [p|]; cbn [rbind] in E; [|discriminate]. destruct (wrLvl _ _ _) as [r|]; cbn [rbind] in E; [|discriminate]. assert (e = e') as <- by congruence. split; [exact P|exact Logic.I]. }
    intros v. apply rsafe. intros idso _. apply bsafe; [|intros; exact Logic.I]. apply fsafe. intros v1 id. apply vsafe. intros e e' a P E. match type of E with rbind ?r _ = _ => destruct r as [v2|]; cbn [rbind] in E; [|discriminate] end.
    assert (e = e') as <- by congruence. split; [exact P|exact Logic.I].
  Qed.
  Lemma mcode_safe crs pscale (o : nat -> order) (e : mcall N) : (forall n, order_ok (o n)) -> goodop pp (opOf e) -> safe (fun _ => True) (mcode pp crs pscale o e).
  Proof.
    intros O G. destruct e as [c0 c1|c0 c1|c pt s|c0 c1 same|c0 c1|c k rk|c k rk|c ck]; cbn [mcode opOf goodop] in *.
    - unfold AddNewP. apply rsafe. intros out _. apply evalP_safe. apply O.
    - unfold SubNewP. apply rsafe. intros out _. apply bsafe; [apply evalP_safe; apply O|]. intros out1. apply psafe_pres. trivial.
    - apply MulPtxtNewP_safe.
    - apply MulRelinNewP_safe; [apply O|apply G..].
    - destruct G as [G0 G1]. apply bsafe; [apply HoistedFormP_safe; apply good_fits; exact G0|]. intros h0. apply bsafe; [apply HoistedFormP_safe; apply good_fits; exact G1|]. intros h1. apply MulRelinHoistedNewP_safe; trivial.
    - apply psafe_liftK. apply (RotateNew_safe pp WF). apply good_fits. exact G.
    - apply bsafe; [apply HoistedFormP_safe; apply good_fits; exact G|]. intros h. apply psafe_liftK. apply (RotateHoistedNew_safe pp WF). apply good_fits. exact G.
    - apply psafe_liftK. apply (ConjugateNew_safe pp WF). apply good_fits. exact G.
  Qed.
End Safe.
