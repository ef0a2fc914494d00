(** Rotation (C22), hoisted rotation (C21) and conjugation (C24). *)
From Verif Require Import Base IdSetModel KeySetModel NumTheory Negacyclic Ntt Word BasisExt BasisExtProofs Rows RlweModel KeyGenModel SchemeSpec ExtProd ExtProps Galois KeyGenProofs CtModel CtSpec CtProofs EncDecProofs KeySwitchModel Digits KsLoops.
From Coq Require Import Znumtheory Setoid Morphisms.
Open Scope Z_scope.

(** error of one key switch on digits of size DB, key error B, secret of size T *)
Definition switch_noise (N : nat) (pp : rparams) (level : nat) (DB B T : Z) : Z :=
  (Z.of_nat (beta pp level) * (Z.of_nat N * B * DB) + slack (Pprod pp) + Z.of_nat N * T * slack (Pprod pp)) / Pprod pp.

Section Rot.
  Context {N : nat} (pp : rparams) (WF : wfp N pp).
  Notation R := (R N). Notation ct := (ctT N). Notation L := (maxLevel pp).
  Notation phase := (@phase N pp). Notation pvalue := (@pvalue N pp). Notation wfct := (@wfct N pp). Notation wfpoly := (@wfpoly N pp).
  Add Ring R_ring10 : (@R_ring_theory N).

  Lemma permRows_ok level g h (a : list R) : 0 <= g < 2 * Z.of_nat N -> Z.odd h = true -> (2 * Z.of_nat N | g * h - 1) ->
    (level < length (Qm pp))%nat -> (forall j, (j <= level)%nat -> inr (Qi pp j) (row a j)) ->
    length (permRows pp level g a) = S level /\ forall j, (j <= level)%nat -> inr (Qi pp j) (row (permRows pp level g a) j) /\
      eqm (mq (Qi pp j)) (row (permRows pp level g a) j) (aut h (row a j)).
  Proof.
    intros G O GH HL A. split; [apply tab_length|]. intros j Hj. unfold permRows. rewrite row_tab by lia.
    pose proof (okQ pp WF j ltac:(lia)) as K. pose proof (wf_N _ _ WF) as [_ NB].
    destruct (perm_row_ok g h (Qi pp j) (row a j) (repeat 0 N)) as (X1 & X2 & _); trivial; [apply (pow2N pp WF)|apply K|apply A; assumption|apply repeat_length|].
    split; assumption.
  Qed.
  Lemma polyCopy_full (dst : poly N) rows fl : length (prows dst) = length rows -> polyCopy dst (Pol rows fl) = Pol rows fl.
  Proof. intros E. unfold polyCopy. cbn [prows pntt]. rewrite E, Nat.min_id, firstn_all, skipn_all2, app_nil_r by lia. reflexivity. Qed.
  Lemma polyCopy_wf level lin fl fl' (dst src : poly N) : (level <= lin)%nat -> wfpoly level fl dst -> wfpoly lin fl' src ->
    wfpoly level fl' (polyCopy dst src) /\ forall j, (j <= level)%nat -> row (prows (polyCopy dst src)) j = row (prows src) j.
  Proof.
    intros H (LD & FD & ID) (LS & FS & IS).
    assert (E : prows (polyCopy dst src) = firstn (S level) (prows src)).
    { unfold polyCopy. cbn [prows]. rewrite LD, LS. replace (Nat.min (S level) (S lin)) with (S level) by lia. rewrite skipn_all2, app_nil_r by lia. reflexivity. }
    assert (X : forall j, (j <= level)%nat -> row (prows (polyCopy dst src)) j = row (prows src) j).
    { intros j Hj. rewrite E. unfold row. apply nth_firstn. lia. }
    split; [|exact X]. split; [rewrite E, firstn_length; lia|]. split; [exact FS|]. intros j Hj. rewrite X by assumption. apply IS. lia.
  Qed.

  (** what is needed of one party: its rotation key and the digits of its component *)
  Definition rot_party2 level (h : option (hoisted N)) (ctIn : ct) k (a : swk N) (rk : rotset N) (s1 s : string -> R) B T DB id : Prop :=
    exists key ds D (e : nat -> R), rk_get rk id k = Ok key /\ (beta pp level <= length (rtk_val key))%nat /\
      (forall i, (i < beta pp level)%nat -> bnd (e i) B /\
         mval pp level (nth i (rtk_val key) dQP) (fun m => sub (add (e i) (mul (gad pp i m) (s1 id))) (mul (aut (galEl N k) (s id)) (swk_val pp a i m)))) /\
      bnd (s id) T /\ hdig pp level h ctIn id = Ok ds /\ digits pp level (row (prows (comp ctIn id))) DB ds D.

  Definition rot_party level (h : option (hoisted N)) (ctIn : ct) k (a : swk N) (rk : rotset N) (s : string -> R) B T DB id : Prop :=
    rot_party2 level h ctIn k a rk s s B T DB id.

  (** the keys switch from the secrets s1 to the secrets s *)
  Theorem RotateGen_ok2 level lin fo (o : IdSetModel.order) crs h ctIn rotidx rk out (s1 s : string -> R) B T DB k a :
    order_ok o -> (lin < length (Qm pp))%nat -> (level <= lin)%nat -> wfct lin false ctIn -> wfct level fo out ->
    (forall x, In x (keys out) <-> In x (keys ctIn)) ->
    k = (if rotidx <? 0 then rotidx mod Z.of_nat (N / 2) else rotidx) -> mget Z.eq_dec crs k = Some a -> crs_ok pp a ->
    (forall id, In id (parties ctIn) -> rot_party2 level h ctIn k a rk s1 s B T DB id) ->
    exists out' E, RotateGen pp o crs h ctIn rotidx rk out = Ok out' /\ wfct level false out' /\ (forall x, In x (keys out') <-> In x (keys ctIn)) /\
      bnd E (Z.of_nat (length (parties ctIn)) * switch_noise N pp level DB B T) /\
      forall j, (j <= level)%nat -> eqm (mq (Qi pp j)) (phase s out' j) (add (galois (5 ^ k) (phase s1 ctIn j)) E).
  Proof.
    intros O HLin HL WI WO KS EK GA CA HP. pose proof (wf_N _ _ WF) as [N2 NB]. pose proof (pow2N pp WF) as P2.
    assert (HLl : (level < length (Qm pp))%nat) by lia.
    assert (K0 : 0 <= k).
    { subst k. destruct (Z.ltb_spec rotidx 0); [|lia]. apply Z.mod_pos_bound. assert (N / 2 <> 0)%nat by (intros Z0; apply Nat.div_small_iff in Z0; lia). lia. }
    assert (HLm : (level <= L)%nat) by (unfold maxLevel; lia).
    pose proof (beta_mono pp WF level HLl) as BM.
    (* per party: the two external products *)
    pose (Pr := fun id (y : list R * list R * R) =>
       exists key, rk_get rk id k = Ok key /\ ExtOp pp level h ctIn id (rtk_val key) = Ok (fst (fst y)) /\ ExtOp pp level h ctIn id a = Ok (snd (fst y)) /\
         length (fst (fst y)) = S level /\ length (snd (fst y)) = S level /\
         (forall j, (j <= level)%nat -> canon (Qi pp j) (row (fst (fst y)) j) /\ canon (Qi pp j) (row (snd (fst y)) j)) /\
         bnd (snd y) (switch_noise N pp level DB B T) /\
         forall j, (j <= level)%nat -> eqm (mq (Qi pp j)) (add (row (fst (fst y)) j) (mul (aut (galEl N k) (s id)) (row (snd (fst y)) j)))
                                     (add (mul (row (prows (comp ctIn id)) j) (s1 id)) (snd y))).
    assert (X : exists F : string -> (list R * list R * R), forall id, In id (parties ctIn) -> Pr id (F id)).
    { apply (list_choice _ Pr (nil, nil, R0)). intros id Hid. destruct (HP id Hid) as (key & ds & D & e & H1 & H2 & H3 & H4 & H5 & H6).
      destruct (hoist_switch pp WF level ds (rtk_val key) a (row (prows (comp ctIn id))) DB D (s1 id) (aut (galEl N k) (s id)) e (swk_val pp a) B T) as (ob & oa & EE & Y1 & Y2 & Y3 & Y4 & Y5 & Y6 & Y7); trivial.
      - destruct CA as [CA _]. lia.
      - intros i Hi. apply H3. assumption.
      - intros i Hi. apply (mval_mono pp level); [assumption|]. apply (swk_mval pp WF); [assumption|lia].
      - intros i Hi. apply H3. assumption.
      - apply aut_bnd. assumption.
      - exists (ob, oa, EE). unfold Pr. cbn [fst snd]. exists key. split; [exact H1|]. rewrite !(ExtOp_hdig pp level h ctIn id ds) by assumption. repeat (split; [assumption|]). assumption. }
    destruct X as [F HF]. unfold Pr in HF. clear Pr. set (obf := fun id => fst (fst (F id))) in *. set (oaf := fun id => snd (fst (F id))) in *. set (ef := fun id => snd (F id)) in *.
    unfold RotateGen. rewrite (wfct_level pp _ _ _ WO). cbn [rbind].
    destruct (IDSetOf_ok (o 0%nat) ctIn) as (ids & I1 & I2 & I3); [intros l; apply O|]. rewrite I1. cbn [rbind].
    rewrite (wfct_level pp _ _ _ WI). cbn [rbind]. destruct (Nat.ltb_spec lin level); [lia|].
    rewrite norm_rot_ok by assumption. cbn [rbind]. rewrite <- EK.
    destruct WI as (WI1 & WI2 & WI3). assert (WI : wfct lin false ctIn) by (split; [assumption|split; assumption]).
    destruct WO as (WO1 & WO2 & WO3). assert (WO : wfct level fo out) by (split; [assumption|split; assumption]).
    rewrite (cget_comp ctIn id0), (cget_comp out id0) by assumption. cbn [rbind].
    destruct (polyCopy_wf level lin fo false (comp out id0) (comp ctIn id0) HL) as [PC1 PC2]; [apply (wfct_comp pp _ _ _ _ WO WO2)|apply (wfct_comp pp _ _ _ _ WI WI2)|].
    set (out1 := cset out id0 (polyCopy (comp out id0) (comp ctIn id0))).
    assert (K1 : forall x, In x (keys out1) <-> In x (keys ctIn)) by (intros x; unfold out1; rewrite keys_upd by assumption; apply KS).
    set (l := o 1%nat (keys ids)).
    assert (PL : Permutation l (keys ids)) by apply O.
    assert (ND : NoDup l) by (apply (Permutation_NoDup (Permutation_sym PL)); assumption).
    assert (IL : forall x, In x l <-> In x (parties ctIn)).
    { intros x. rewrite in_parties, <- I3. unfold is_has. rewrite mhas_In. split; apply Permutation_in; [assumption|apply Permutation_sym; assumption]. }
    destruct (loop2 (fun c id => key <- rk_get rk id k ;; e <- ExtOp pp level h ctIn id (rtk_val key) ;; q0 <- cget c id0 ;;
       c <- cwr c id0 (lvlQ2 pp level r_add (prows q0) e) ;; a <- crs_get crs k ;; ea <- ExtOp pp level h ctIn id a ;; cwr c id ea)
      (fun id p => Pol (lvlQ2 pp level r_add (prows p) (obf id)) (pntt p)) (fun id p => Pol (oaf id) (pntt p)) l out1) as (out2 & L1 & L2 & L3 & L4 & L5); trivial.
    { apply mwf_mset. assumption. }
    { intros x Hx. apply K1. apply IL in Hx. apply in_parties in Hx. apply Hx. }
    { apply K1. assumption. }
    { intros J. apply IL in J. apply in_parties in J. tauto. }
    { intros c id Hid Wc Kc Ec. apply IL in Hid. destruct (HF id Hid) as (key & H1 & H2 & H3 & _). apply in_parties in Hid. destruct Hid as [Nid Hid].
      rewrite H1. cbn [rbind]. rewrite H2. cbn [rbind]. rewrite (cget_comp c id0) by (apply Kc; apply K1; assumption). cbn [rbind].
      rewrite cwr_ok by (apply Kc; apply K1; assumption). cbn [rbind]. unfold crs_get. rewrite GA. cbn [rbind]. rewrite H3. cbn [rbind].
      rewrite cwr_ok by (apply keys_cset; right; apply Kc; apply K1; assumption). rewrite comp_neq by assumption. rewrite Ec. reflexivity. }
    rewrite L1. cbn [rbind].
    assert (C01 : comp out1 id0 = polyCopy (comp out id0) (comp ctIn id0)) by apply comp_eq.
    rewrite C01 in L4.
    destruct (fold_add_rows pp WF level false obf l (polyCopy (comp out id0) (comp ctIn id0)) HLl PC1) as [FA1 FA2].
    { intros id Hid j Hj. apply canon_inr. apply IL in Hid. destruct (HF id Hid) as (key & _ & _ & _ & _ & _ & H6 & _). apply H6. assumption. }
    cbv zeta in FA1, FA2. rewrite <- L4 in FA1, FA2.
    (* the permutation of every component *)
    set (gal := galEl N k). set (hh := invGalEl N gal).
    assert (GB : 0 <= gal < 2 * Z.of_nat N) by (apply (galEl_range N P2)).
    assert (GO : Z.odd gal = true) by apply (galEl_odd N P2).
    assert (HO : Z.odd hh = true) by (apply (invGalEl_odd N P2); assumption).
    assert (GH : (2 * Z.of_nat N | gal * hh - 1)) by (apply (invGalEl_ok N P2); assumption).
    assert (C2 : forall x, In x (keys ctIn) -> length (prows (comp out2 x)) = S level /\ forall j, (j <= level)%nat -> inr (Qi pp j) (row (prows (comp out2 x)) j)).
    { intros x Hx. destruct (string_dec x id0) as [->|n]; [split; apply FA1|].
      assert (Ip : In x (parties ctIn)) by (apply in_parties; tauto). rewrite L5 by assumption. destruct (in_dec string_dec x l) as [J|J]; [|exfalso; apply J; apply IL; assumption].
      cbn [prows]. destruct (HF x Ip) as (key & _ & _ & _ & _ & H5 & H6 & _). split; [exact H5|]. intros j Hj. apply canon_inr. apply H6. assumption. }
    set (l2 := o 2%nat (keys ctIn)).
    assert (PL2 : Permutation l2 (keys ctIn)) by apply O.
    destruct (loop1 (fun c id => q <- cget c id ;; Ok (cset c id (polyCopy q (Pol (permRows pp level gal (prows q)) false))))
       (fun id p => Pol (permRows pp level gal (prows p)) false) l2 out2) as (out3 & M1 & M2 & M3 & M4); trivial.
    { apply (Permutation_NoDup (Permutation_sym PL2)). assumption. }
    { intros x Hx. apply L3. apply K1. apply (Permutation_in _ PL2). assumption. }
    { intros c id Hid Wc Kc Ec. rewrite (cget_comp c id) by (apply Kc, L3, K1, (Permutation_in _ PL2); assumption). cbn [rbind]. rewrite Ec. f_equal. f_equal.
      apply polyCopy_full. unfold permRows. rewrite tab_length. apply C2. apply (Permutation_in _ PL2). assumption. }
    exists out3, (aut hh (Lsum l ef)). split; [exact M1|].
    assert (K3 : forall x, In x (keys out3) <-> In x (keys ctIn)) by (intros x; rewrite M3, L3; apply K1).
    assert (C3 : forall x, In x (keys ctIn) -> comp out3 x = Pol (permRows pp level gal (prows (comp out2 x))) false).
    { intros x Hx. rewrite M4. destruct (in_dec string_dec x l2) as [|J]; [reflexivity|]. exfalso. apply J. apply (Permutation_in _ (Permutation_sym PL2)). assumption. }
    assert (PR : forall x, In x (keys ctIn) -> length (permRows pp level gal (prows (comp out2 x))) = S level /\
       forall j, (j <= level)%nat -> inr (Qi pp j) (row (permRows pp level gal (prows (comp out2 x))) j) /\ eqm (mq (Qi pp j)) (row (permRows pp level gal (prows (comp out2 x))) j) (aut hh (row (prows (comp out2 x)) j))).
    { intros x Hx. apply permRows_ok; trivial. apply C2. assumption. }
    split; [|split; [exact K3|split]].
    - split; [assumption|]. split; [apply K3; assumption|]. intros x p Hp.
      assert (Hx : In x (keys ctIn)) by (apply K3; apply (mget_In_keys seq_dec); rewrite Hp; discriminate).
      assert (p = comp out3 x) by (unfold comp; rewrite Hp; reflexivity). subst p. rewrite (C3 x Hx). destruct (PR x Hx) as [Y1 Y2].
      split; [exact Y1|]. split; [reflexivity|]. intros j Hj. apply Y2. assumption.
    - apply aut_bnd.
      assert (PLp : Permutation l (parties ctIn)) by (apply NoDup_Permutation; [assumption|apply parties_nodup; assumption|apply IL]).
      rewrite <- (Permutation_length PLp). apply Lsum_bnd. intros x Hx. apply IL in Hx. destruct (HF x Hx) as (key & _ & _ & _ & _ & _ & _ & H7 & _). exact H7.
    - intros j Hj.
      assert (IL2 : forall x, In x l <-> x <> id0 /\ In x (keys out3)) by (intros x; rewrite IL, in_parties, K3; reflexivity).
      rewrite (phase_list pp s out3 j l M2 ND IL2), (phase_list pp s1 ctIn j l WI1 ND) by (intros x; rewrite IL, in_parties; reflexivity).
      rewrite (galois_galEl P2) by assumption. fold gal. fold hh.
      assert (PVI : forall x, In x (keys ctIn) -> pvalue (comp ctIn x) j = row (prows (comp ctIn x)) j).
      { intros x Hx. unfold CtSpec.pvalue. destruct (wfct_comp pp _ _ _ _ WI Hx) as (_ & Fx & _). rewrite Fx. reflexivity. }
      assert (PVO : forall x, In x (keys ctIn) -> eqm (mq (Qi pp j)) (pvalue (comp out3 x) j) (aut hh (row (prows (comp out2 x)) j))).
      { intros x Hx. rewrite (C3 x Hx). unfold CtSpec.pvalue. cbn [pntt prows]. apply PR; assumption. }
      rewrite (PVO id0 WI2), (PVI id0 WI2).
      rewrite (Lsum_eqm (mq (Qi pp j)) l _ (fun x => aut hh (mul (aut gal (s x)) (row (oaf x) j)))).
      2:{ intros x Hx. apply IL in Hx. pose proof (proj1 (in_parties _ _) Hx) as [Nx Kx]. rewrite (PVO x Kx). rewrite L5 by assumption.
          destruct (in_dec string_dec x l) as [J|J]; [|exfalso; apply J; apply IL; assumption]. cbn [prows].
          rewrite (aut_mul' P2 hh) by assumption. unfold hh, gal. rewrite (aut_inv_gal P2) by assumption. apply eqm_eq. ring. }
      rewrite (Lsum_ext l (fun x => mul (pvalue (comp ctIn x) j) (s1 x)) (fun x => mul (row (prows (comp ctIn x)) j) (s1 x))).
      2:{ intros x Hx. apply IL in Hx. apply in_parties in Hx. rewrite PVI by apply Hx. reflexivity. }
      rewrite <- Lsum_aut, <- !aut_add. apply aut_eqm. rewrite FA2 by assumption. rewrite PC2 by assumption.
      transitivity (add (row (prows (comp ctIn id0)) j) (Lsum l (fun x => add (row (obf x) j) (mul (aut gal (s x)) (row (oaf x) j))))); [rewrite Lsum_add; apply eqm_eq; ring|].
      transitivity (add (row (prows (comp ctIn id0)) j) (Lsum l (fun x => add (mul (row (prows (comp ctIn x)) j) (s1 x)) (ef x)))); [|rewrite Lsum_add; apply eqm_eq; ring].
      apply eqm_add; [reflexivity|]. apply Lsum_eqm. intros x Hx. apply IL in Hx. destruct (HF x Hx) as (key & _ & _ & _ & _ & _ & _ & _ & H8). apply H8. assumption.
  Qed.
  Theorem RotateGen_ok level lin fo (o : IdSetModel.order) crs h ctIn rotidx rk out (s : string -> R) B T DB k a :
    order_ok o -> (lin < length (Qm pp))%nat -> (level <= lin)%nat -> wfct lin false ctIn -> wfct level fo out ->
    (forall x, In x (keys out) <-> In x (keys ctIn)) ->
    k = (if rotidx <? 0 then rotidx mod Z.of_nat (N / 2) else rotidx) -> mget Z.eq_dec crs k = Some a -> crs_ok pp a ->
    (forall id, In id (parties ctIn) -> rot_party level h ctIn k a rk s B T DB id) ->
    exists out' E, RotateGen pp o crs h ctIn rotidx rk out = Ok out' /\ wfct level false out' /\ (forall x, In x (keys out') <-> In x (keys ctIn)) /\
      bnd E (Z.of_nat (length (parties ctIn)) * switch_noise N pp level DB B T) /\
      forall j, (j <= level)%nat -> eqm (mq (Qi pp j)) (phase s out' j) (add (galois (5 ^ k) (phase s ctIn j)) E).
  Proof. apply RotateGen_ok2. Qed.
End Rot.
