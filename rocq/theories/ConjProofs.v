(** Conjugation (C24). *)
From Verif Require Import Base IdSetModel KeySetModel NumTheory Negacyclic Ntt Word BasisExt BasisExtProofs Rows RlweModel KeyGenModel SchemeSpec ExtProd ExtProps Galois KeyGenProofs CtModel CtSpec CtProofs EncDecProofs KeySwitchModel Digits KsLoops RotProofs.
From Coq Require Import Znumtheory Setoid Morphisms.
Open Scope Z_scope.

Section Conj.
  Context {N : nat} (pp : rparams) (WF : wfp N pp).
  Notation R := (R N). Notation ct := (ctT N). Notation L := (maxLevel pp).
  Notation phase := (@phase N pp). Notation pvalue := (@pvalue N pp). Notation wfct := (@wfct N pp). Notation wfpoly := (@wfpoly N pp).
  Add Ring R_ring11 : (@R_ring_theory N).

  Lemma mset_same (c : ct) id p : mget seq_dec c id = Some p -> cset c id p = c.
  Proof.
    unfold cset. induction c as [|[k v] c IH]; cbn; [discriminate|]. destruct (seq_dec id k) as [->|n]; [intros [= ->]; reflexivity|].
    intros H. rewrite IH by assumption. reflexivity.
  Qed.

  (** digits of a coefficient-domain component, decomposed at the level of the operation *)
  Lemma hdig_plain level (c : ct) id : (level < length (Qm pp))%nat -> In id (keys c) -> pntt (comp c id) = false -> okrows pp level (prows (comp c id)) ->
    exists ds D, hdig pp level None c id = Ok ds /\ digits pp level (row (prows (comp c id))) (dig_bound pp level) ds D.
  Proof.
    intros HL I F OR. unfold hdig, cgetL. rewrite (cget_comp c id I). cbn [rbind]. destruct OR as [O1 O2].
    destruct (Nat.leb_spec (length (prows (comp c id))) level); [lia|]. cbn [rbind].
    assert (EI : inv_form pp level (comp c id) = prows (comp c id)) by (unfold inv_form; rewrite F; reflexivity).
    destruct (Decompose_digits pp WF level level (comp c id) ltac:(lia) HL) as (ds & A1 & A2 & A3); [rewrite EI; split; assumption|].
    rewrite EI in A3. exists ds. eexists. split; [exact A1|exact A3].
  Qed.

  Definition conj_party (a : swk N) (ck : conjset N) (s : string -> R) B T id : Prop :=
    exists key (e : nat -> R), ks_get ck id = Ok key /\ (beta pp L <= length (cjk_val key))%nat /\ bnd (s id) T /\
      forall i, (i < beta pp L)%nat -> bnd (e i) B /\
        mval pp L (nth i (cjk_val key) dQP) (fun m => sub (add (e i) (mul (gad pp i m) (galois (-1) (s id)))) (mul (s id) (swk_val pp a i m))).

  Theorem Conjugate_ok fo (o : IdSetModel.order) crs (ctIn : ct) ck out (s : string -> R) B T a :
    order_ok o -> wfct L false ctIn -> wfct L fo out -> (forall x, In x (keys out) <-> In x (keys ctIn)) -> fo = false ->
    mget Z.eq_dec crs (-2) = Some a -> crs_ok pp a -> (forall id, In id (parties ctIn) -> conj_party a ck s B T id) ->
    exists out' E, Conjugate pp o crs ctIn ck out = Ok out' /\ wfct L false out' /\ (forall x, In x (keys out') <-> In x (keys ctIn)) /\
      bnd E (Z.of_nat (length (parties ctIn)) * switch_noise N pp L (dig_bound pp L) B T) /\
      forall j, (j <= L)%nat -> eqm (mq (Qi pp j)) (phase s out' j) (add (galois (-1) (phase s ctIn j)) E).
  Proof.
    intros O WI WO KS -> GA CA HP. pose proof (wf_N _ _ WF) as [N2 NB]. pose proof (pow2N pp WF) as P2. pose proof (L_lt pp WF) as HL.
    destruct WI as (WI1 & WI2 & WI3). assert (WI : wfct L false ctIn) by (split; [assumption|split; assumption]).
    destruct WO as (WO1 & WO2 & WO3). assert (WO : wfct L false out) by (split; [assumption|split; assumption]).
    unfold Conjugate. rewrite (wfct_level pp _ _ _ WO). cbn [rbind].
    destruct (IDSetOf_ok (o 0%nat) ctIn) as (ids & I1 & I2 & I3); [intros l; apply O|]. rewrite I1. cbn [rbind].
    rewrite (wfct_level pp _ _ _ WI). cbn [rbind]. rewrite Nat.ltb_irrefl.
    (* permutation *)
    set (cj := conjEl N).
    assert (CB : 0 <= cj < 2 * Z.of_nat N) by (unfold cj, conjEl; lia).
    assert (CO : Z.odd cj = true) by apply conj_odd.
    assert (CC : (2 * Z.of_nat N | cj * cj - 1)) by (apply conj_inv).
    assert (PR : forall x, In x (keys ctIn) -> length (permRows pp L cj (prows (comp ctIn x))) = S L /\
       forall j, (j <= L)%nat -> inr (Qi pp j) (row (permRows pp L cj (prows (comp ctIn x))) j) /\ eqm (mq (Qi pp j)) (row (permRows pp L cj (prows (comp ctIn x))) j) (aut cj (row (prows (comp ctIn x)) j))).
    { intros x Hx. apply (permRows_ok pp WF); trivial. apply (wfct_comp pp _ _ _ _ WI Hx). }
    set (l1 := o 1%nat (keys ctIn)).
    assert (PL1 : Permutation l1 (keys ctIn)) by apply O.
    destruct (loop1 (fun c id => p <- cgetL ctIn id L ;; _ <- cgetL c id L ;; cwr c id (permRows pp L cj (prows p)))
       (fun id p => Pol (permRows pp L cj (prows (comp ctIn id))) (pntt p)) l1 out) as (c1 & L1 & L2 & L3 & L4); trivial.
    { apply (Permutation_NoDup (Permutation_sym PL1)). assumption. }
    { intros x Hx. apply KS. apply (Permutation_in _ PL1). assumption. }
    { intros c id Hid Wc Kc Ec. apply (Permutation_in _ PL1) in Hid. unfold cgetL. rewrite (cget_comp ctIn id Hid). cbn [rbind].
      rewrite (proj1 (wfct_comp pp _ _ _ _ WI Hid)). destruct (Nat.leb_spec (S L) L); [lia|]. cbn [rbind].
      assert (Hc : In id (keys c)) by (apply Kc; apply KS; assumption). rewrite (cget_comp c id Hc). cbn [rbind]. rewrite Ec.
      rewrite (proj1 (wfct_comp pp _ _ _ id WO ltac:(apply KS; assumption))). destruct (Nat.leb_spec (S L) L); [lia|]. cbn [rbind].
      rewrite cwr_ok by assumption. rewrite Ec. reflexivity. }
    rewrite L1. cbn [rbind].
    assert (C1 : forall x, In x (keys ctIn) -> comp c1 x = Pol (permRows pp L cj (prows (comp ctIn x))) false).
    { intros x Hx. rewrite L4. destruct (in_dec string_dec x l1) as [J|J]; [|exfalso; apply J; apply (Permutation_in _ (Permutation_sym PL1)); assumption].
      f_equal. apply (wfct_comp pp _ _ _ x WO). apply KS. assumption. }
    assert (K1 : forall x, In x (keys c1) <-> In x (keys ctIn)) by (intros x; rewrite L3; apply KS).
    assert (W1 : forall x, In x (keys ctIn) -> wfpoly L false (comp c1 x)).
    { intros x Hx. rewrite (C1 x Hx). destruct (PR x Hx) as [Y1 Y2]. split; [exact Y1|]. split; [reflexivity|]. intros j Hj. apply Y2. assumption. }
    (* the external products *)
    pose (Pr := fun id (y : list R * list R * R) =>
       exists key ds, ks_get ck id = Ok key /\ hdig pp L None c1 id = Ok ds /\ ExternalProductHoisted pp L ds (cjk_val key) = Ok (fst (fst y)) /\
         ExternalProductHoisted pp L ds a = Ok (snd (fst y)) /\ length (fst (fst y)) = S L /\ length (snd (fst y)) = S L /\
         (forall j, (j <= L)%nat -> canon (Qi pp j) (row (fst (fst y)) j) /\ canon (Qi pp j) (row (snd (fst y)) j)) /\
         bnd (snd y) (switch_noise N pp L (dig_bound pp L) B T) /\
         forall j, (j <= L)%nat -> eqm (mq (Qi pp j)) (add (row (fst (fst y)) j) (mul (s id) (row (snd (fst y)) j)))
                                     (add (mul (row (prows (comp c1 id)) j) (aut cj (s id))) (snd y))).
    assert (X : exists F : string -> (list R * list R * R), forall id, In id (parties ctIn) -> Pr id (F id)).
    { apply (list_choice _ Pr (nil, nil, R0)). intros id Hid. destruct (HP id Hid) as (key & e & H1 & H2 & H3 & H4).
      apply in_parties in Hid. destruct Hid as [Nid Hid]. pose proof (W1 id Hid) as (Y1 & Y2 & Y3).
      destruct (hdig_plain L c1 id HL) as (ds & D & D1 & D2); [apply K1; assumption|assumption|split; [lia|assumption]|].
      destruct (hoist_switch pp WF L ds (cjk_val key) a (row (prows (comp c1 id))) (dig_bound pp L) D (aut cj (s id)) (s id) e (swk_val pp a) B T) as (ob & oa & EE & Z1 & Z2 & Z3 & Z4 & Z5 & Z6 & Z7); trivial.
      - destruct CA as [CA _]. lia.
      - intros i Hi. unfold cj. rewrite <- galois_conj. apply H4. assumption.
      - intros i Hi. apply (swk_mval pp WF); assumption.
      - intros i Hi. apply H4. assumption.
      - exists (ob, oa, EE). exists key, ds. cbn [fst snd]. repeat (split; [assumption|]). assumption. }
    destruct X as [F HF]. unfold Pr in HF. clear Pr. set (obf := fun id => fst (fst (F id))) in *. set (oaf := fun id => snd (fst (F id))) in *. set (ef := fun id => snd (F id)) in *.
    set (l := o 2%nat (keys ids)).
    assert (PL : Permutation l (keys ids)) by apply O.
    assert (ND : NoDup l) by (apply (Permutation_NoDup (Permutation_sym PL)); assumption).
    assert (IL : forall x, In x l <-> In x (parties ctIn)).
    { intros x. rewrite in_parties, <- I3. unfold is_has. rewrite mhas_In. split; apply Permutation_in; [assumption|apply Permutation_sym; assumption]. }
    assert (HD : forall c id, In id (keys c) -> In id (keys ctIn) -> comp c id = comp c1 id -> hdig pp L None c id = hdig pp L None c1 id).
    { intros c id J1 J2 Ec. unfold hdig, cgetL. rewrite (cget_comp c id J1), (cget_comp c1 id) by (apply K1; assumption). rewrite Ec. reflexivity. }
    destruct (loop2 (fun c id => key <- ks_get ck id ;; e <- ExtOp pp L None c id (cjk_val key) ;; q0 <- cget c id0 ;; cwr c id0 (lvlQ2 pp L r_add (prows q0) e))
      (fun id p => Pol (lvlQ2 pp L r_add (prows p) (obf id)) (pntt p)) (fun id p => p) l c1) as (c2 & M1 & M2 & M3 & M4 & M5); trivial.
    { intros x Hx. apply K1. apply IL in Hx. apply in_parties in Hx. apply Hx. }
    { apply K1. assumption. }
    { intros J. apply IL in J. apply in_parties in J. tauto. }
    { intros c id Hid Wc Kc Ec. apply IL in Hid. destruct (HF id Hid) as (key & ds & H1 & H2 & H3 & H4 & _). apply in_parties in Hid. destruct Hid as [Nid Hid].
      assert (Hc : In id (keys c)) by (apply Kc; apply K1; assumption).
      rewrite H1. cbn [rbind]. rewrite (ExtOp_hdig pp L None c id ds) by (rewrite HD; assumption). rewrite H3. cbn [rbind].
      rewrite (cget_comp c id0) by (apply Kc; apply K1; assumption). cbn [rbind]. rewrite cwr_ok by (apply Kc; apply K1; assumption). f_equal. symmetry.
      apply mset_same. unfold cset. rewrite mget_mset_neq by assumption. rewrite (mget_comp c id Hc), Ec. reflexivity. }
    rewrite M1. cbn [rbind].
    destruct (fold_add_rows pp WF L false obf l (comp c1 id0) HL (W1 id0 WI2)) as [FA1 FA2].
    { intros id Hid j Hj. apply canon_inr. apply IL in Hid. destruct (HF id Hid) as (key & ds & _ & _ & _ & _ & _ & _ & H6 & _). apply H6. assumption. }
    cbv zeta in FA1, FA2. rewrite <- M4 in FA1, FA2.
    assert (C2 : forall x, x <> id0 -> comp c2 x = comp c1 x) by (intros x Hx; rewrite M5 by assumption; destruct (in_dec string_dec x l); reflexivity).
    assert (K2 : forall x, In x (keys c2) <-> In x (keys ctIn)) by (intros x; rewrite M3; apply K1).
    set (l3 := o 3%nat (keys ids)).
    assert (PL3 : Permutation l3 (keys ids)) by apply O.
    assert (IL3 : forall x, In x l3 <-> In x (parties ctIn)).
    { intros x. rewrite in_parties, <- I3. unfold is_has. rewrite mhas_In. split; apply Permutation_in; [assumption|apply Permutation_sym; assumption]. }
    destruct (loop1 (fun c id => a <- crs_get crs (-2) ;; e <- ExtOp pp L None c id a ;; q <- cget c id ;; Ok (cset c id (polyCopy q (Pol e false))))
       (fun id p => Pol (oaf id) false) l3 c2) as (c3 & Q1 & Q2 & Q3 & Q4); trivial.
    { apply (Permutation_NoDup (Permutation_sym PL3)). assumption. }
    { intros x Hx. apply K2. apply IL3 in Hx. apply in_parties in Hx. apply Hx. }
    { intros c id Hid Wc Kc Ec. apply IL3 in Hid. destruct (HF id Hid) as (key & ds & H1 & H2 & H3 & H4 & _ & H5 & _). apply in_parties in Hid. destruct Hid as [Nid Hid].
      assert (Hc : In id (keys c)) by (apply Kc; apply K2; assumption). rewrite C2 in Ec by assumption.
      unfold crs_get. rewrite GA. cbn [rbind]. rewrite (ExtOp_hdig pp L None c id ds) by (rewrite HD; assumption). rewrite H4. cbn [rbind].
      rewrite (cget_comp c id Hc). cbn [rbind]. f_equal. f_equal. apply polyCopy_full. rewrite Ec, (proj1 (W1 id Hid)). symmetry. exact H5. }
    exists c3, (Lsum l ef). split; [exact Q1|].
    assert (K3 : forall x, In x (keys c3) <-> In x (keys ctIn)) by (intros x; rewrite Q3; apply K2).
    assert (C30 : comp c3 id0 = comp c2 id0).
    { rewrite Q4. destruct (in_dec string_dec id0 l3) as [J|J]; [|reflexivity]. apply IL3 in J. apply in_parties in J. tauto. }
    assert (C3 : forall x, In x (parties ctIn) -> comp c3 x = Pol (oaf x) false).
    { intros x Hx. rewrite Q4. destruct (in_dec string_dec x l3) as [J|J]; [reflexivity|]. exfalso. apply J. apply IL3. assumption. }
    split; [|split; [exact K3|split]].
    - split; [assumption|]. split; [apply K3; assumption|]. intros x p Hp.
      assert (Hx : In x (keys ctIn)) by (apply K3; apply (mget_In_keys seq_dec); rewrite Hp; discriminate).
      assert (p = comp c3 x) by (unfold comp; rewrite Hp; reflexivity). subst p.
      destruct (string_dec x id0) as [->|n]; [rewrite C30; exact FA1|].
      assert (Ip : In x (parties ctIn)) by (apply in_parties; tauto). rewrite (C3 x Ip). destruct (HF x Ip) as (key & ds & _ & _ & _ & _ & _ & H5 & H6 & _).
      split; [exact H5|]. split; [reflexivity|]. intros j Hj. apply canon_inr. apply H6. assumption.
    - assert (PLp : Permutation l (parties ctIn)) by (apply NoDup_Permutation; [assumption|apply parties_nodup; assumption|apply IL]).
      rewrite <- (Permutation_length PLp). apply Lsum_bnd. intros x Hx. apply IL in Hx. destruct (HF x Hx) as (key & ds & _ & _ & _ & _ & _ & _ & _ & H7 & _). exact H7.
    - intros j Hj.
      rewrite (phase_list pp s c3 j l Q2 ND) by (intros x; rewrite IL, in_parties, K3; reflexivity).
      rewrite (phase_list pp s ctIn j l WI1 ND) by (intros x; rewrite IL, in_parties; reflexivity).
      rewrite galois_conj. fold cj.
      assert (PVI : forall x, In x (keys ctIn) -> pvalue (comp ctIn x) j = row (prows (comp ctIn x)) j).
      { intros x Hx. unfold CtSpec.pvalue. destruct (wfct_comp pp _ _ _ _ WI Hx) as (_ & Fx & _). rewrite Fx. reflexivity. }
      assert (PV0 : pvalue (comp c3 id0) j = row (prows (comp c2 id0)) j).
      { rewrite C30. unfold CtSpec.pvalue. rewrite (proj1 (proj2 FA1)). reflexivity. }
      rewrite PV0, (PVI id0 WI2), FA2 by assumption. rewrite (C1 id0 WI2). cbn [prows]. destruct (PR id0 WI2) as [_ PR0]. destruct (PR0 j Hj) as [_ PR1].
      rewrite PR1.
      rewrite (Lsum_ext l (fun x => mul (pvalue (comp c3 x) j) (s x)) (fun x => mul (s x) (row (oaf x) j))).
      2:{ intros x Hx. apply IL in Hx. rewrite (C3 x Hx). unfold CtSpec.pvalue. cbn [pntt prows]. ring. }
      rewrite (Lsum_ext l (fun x => mul (pvalue (comp ctIn x) j) (s x)) (fun x => mul (row (prows (comp ctIn x)) j) (s x))).
      2:{ intros x Hx. apply IL in Hx. apply in_parties in Hx. rewrite PVI by apply Hx. reflexivity. }
      rewrite aut_add, Lsum_aut.
      transitivity (add (aut cj (row (prows (comp ctIn id0)) j)) (Lsum l (fun x => add (row (obf x) j) (mul (s x) (row (oaf x) j))))); [rewrite Lsum_add; apply eqm_eq; ring|].
      transitivity (add (aut cj (row (prows (comp ctIn id0)) j)) (Lsum l (fun x => add (aut cj (mul (row (prows (comp ctIn x)) j) (s x))) (ef x)))); [|rewrite Lsum_add; apply eqm_eq; ring].
      apply eqm_add; [reflexivity|]. apply Lsum_eqm. intros x Hx. apply IL in Hx. destruct (HF x Hx) as (key & ds & _ & _ & _ & _ & _ & _ & _ & _ & H8).
      eapply eqm_trans; [exact (H8 j Hj)|]. apply in_parties in Hx. destruct Hx as [Nx Hx]. rewrite (C1 x Hx). cbn [prows]. destruct (PR x Hx) as [_ PRx]. destruct (PRx j Hj) as [_ PRj].
      rewrite PRj. rewrite (aut_mul' P2) by assumption. reflexivity.
  Qed.

  (** below the top level conjugation panics *)
  Theorem Conjugate_panics level lin fi fo (o : IdSetModel.order) crs (ctIn : ct) ck out : order_ok o -> wfct lin fi ctIn -> wfct level fo out ->
    (lin < L)%nat \/ (level < L)%nat -> Conjugate pp o crs ctIn ck out = Panic.
  Proof.
    intros O WI WO H. unfold Conjugate. rewrite (wfct_level pp _ _ _ WO). cbn [rbind].
    destruct (IDSetOf_ok (o 0%nat) ctIn) as (ids & I1 & I2 & I3); [intros l; apply O|]. rewrite I1. cbn [rbind].
    rewrite (wfct_level pp _ _ _ WI). cbn [rbind]. destruct (Nat.ltb_spec lin level); [reflexivity|].
    assert (PL1 : Permutation (o 1%nat (keys ctIn)) (keys ctIn)) by apply O.
    destruct (o 1%nat (keys ctIn)) as [|x l] eqn:El.
    { exfalso. apply Permutation_nil in PL1. destruct WI as (_ & WI2 & _). rewrite PL1 in WI2. destruct WI2. }
    cbn [rfold].
    assert (Hx : In x (keys ctIn)) by (apply (Permutation_in _ PL1); left; reflexivity).
    unfold cgetL. rewrite (cget_comp ctIn x Hx). cbn [rbind]. rewrite (proj1 (wfct_comp pp _ _ _ _ WI Hx)).
    destruct (Nat.leb_spec (S lin) L); cbn [rbind]; [reflexivity|].
    destruct (in_dec string_dec x (keys out)) as [J|J]; [|rewrite (cget_none out x J); reflexivity].
    rewrite (cget_comp out x J). cbn [rbind]. rewrite (proj1 (wfct_comp pp _ _ _ _ WO J)). destruct (Nat.leb_spec (S level) L); cbn [rbind]; [reflexivity|]. lia.
  Qed.
End Conj.
