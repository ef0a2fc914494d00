(** C16, C45, C46: the mkbfv decryptor and the linear operations of the mkbfv evaluator. *)
From Flocq Require Import Core BinarySingleNaN.
From Coq Require Import Znumtheory Setoid Morphisms Reals Lra.
From Verif Require Import Base IdSetModel IdSetSpec IdSetProofs KeySetModel NumTheory Negacyclic Ntt Word BasisExt BasisExtProofs Rows RlweModel KeyGenModel SchemeSpec ExtProd ExtProps Galois KeyGenProofs Instance CtModel CtSpec CtProofs EncDecProofs HeapModel HeapProofs PropsEnc KeySwitchModel Digits KsLoops RotProofs MulProofs PropsKeySwitch IndexModel PropsIndex FloatModel CkksFloat CkksModel FloatProofs CkksFloatProofs CkksProofs CkksRescale PropsCkks PropsRescale PropsConst PropsMulRelin PropsCkksEx Slots PropsSlots PropsRotate BfvModel.
Open Scope Z_scope.

Section Bfv.
  Context {N : nat} (pp : rparams) (WF : wfp N pp).
  Notation R := (R N). Notation ct := (ctT N). Notation L := (maxLevel pp).
  Notation phase := (@phase N pp). Notation pvalue := (@pvalue N pp). Notation wfct := (@wfct N pp). Notation wfpoly := (@wfpoly N pp).
  Add Ring R_ring25 : (@R_ring_theory N).
  Notation order := IdSetModel.order.

  Lemma L_lt : (L < length (Qm pp))%nat.
  Proof. pose proof (wf_Qpos _ _ WF). unfold maxLevel. lia. Qed.

  Lemma ids_of (o : list string -> list string) (c : ct) : ord1_ok o -> exists ids, IDSetOf o c = Ok ids /\ mwf ids /\ ~ In id0 (keys ids) /\
    (forall x, is_has ids x = true <-> x <> id0 /\ In x (keys c)) /\ forall x, In x (keys ids) <-> x <> id0 /\ In x (keys c).
  Proof.
    intros O. destruct (IDSetOf_ok o c O) as (ids & A & B & C). exists ids. split; [exact A|]. split; [exact B|].
    assert (X : forall x, In x (keys ids) <-> x <> id0 /\ In x (keys c)) by (intros x; rewrite <- C; unfold is_has; rewrite mhas_In; reflexivity).
    split; [rewrite X; tauto|]. split; [exact C|exact X].
  Qed.

  Lemma bNewBinary_ok (o : order) (c0 c1 : ct) : order_ok o -> In id0 (keys c0) ->
    exists out, bNewBinary pp o c0 c1 = Ok out /\ wfct L false out /\ forall x, In x (keys out) <-> In x (keys c0) \/ (x <> id0 /\ In x (keys c1)).
  Proof.
    intros O I0. unfold bNewBinary.
    destruct (ids_of (o 20%nat) c0) as (ids0 & A0 & M0 & N0 & H0 & K0); [intros l; apply O|]. destruct (ids_of (o 21%nat) c1) as (ids1 & A1 & M1 & N1 & H1 & K1); [intros l; apply O|].
    rewrite A0, A1. cbn [rbind].
    destruct (rep_union o O 22 ids0 (fun x => x <> id0 /\ In x (keys c0)) ids1 (fun x => x <> id0 /\ In x (keys c1))) as (ids & AU & RU); [split; [exact M0|split; assumption]|split; [exact M1|split; assumption]|].
    rewrite AU. cbn [rbind]. eexists. split; [reflexivity|]. unfold bNewCiphertext.
    destruct (C03_new_ciphertext N pp (o 24%nat) ids L WF (fun l => O 24%nat l) L_lt) as (NW & NK & _). split; [exact NW|].
    intros x. rewrite NK. assert (X : In x (keys ids) <-> (x <> id0 /\ In x (keys c0)) \/ (x <> id0 /\ In x (keys c1))) by (apply (proj2 (proj2 RU))). rewrite X.
    split; [intros [->|]; [left; exact I0|tauto]|]. intros H. destruct (string_dec x id0); tauto.
  Qed.

  Definition evok (ev : modulus -> R -> R -> R) : Prop := forall m a b, okq (mq m) -> inr m a -> inr m b -> inr m (ev m a b).
  Definition brow ev (c0 c1 : ct) x j : R :=
    if string_dec x id0 then ev (Qi pp j) (row (prows (comp c0 x)) j) (row (prows (comp c1 x)) j)
    else if in_dec string_dec x (keys c0) then if in_dec string_dec x (keys c1) then ev (Qi pp j) (row (prows (comp c0 x)) j) (row (prows (comp c1 x)) j) else row (prows (comp c0 x)) j
    else row (prows (comp c1 x)) j.

  Lemma bFull2_ok ev (c0 c1 v : ct) x : wfct L false c0 -> wfct L false c1 -> In x (keys c0) -> In x (keys c1) -> In x (keys v) -> length (prows (comp v x)) = S L -> pntt (comp v x) = false ->
    bFull2 pp ev c0 c1 v x = Ok (cset v x (Pol (lvlQ2 pp L ev (prows (comp c0 x)) (prows (comp c1 x))) false)).
  Proof.
    intros W0 W1 I0 I1 IV LV FV. unfold bFull2.
    destruct (wfct_comp pp _ _ _ _ W0 I0) as (A & _ & _). destruct (wfct_comp pp _ _ _ _ W1 I1) as (B & _ & _).
    rewrite !cgetL_comp by (trivial; lia). cbn [rbind]. rewrite FV. reflexivity.
  Qed.

  Lemma bEval_ok (o : order) (c0 c1 out : ct) ev : order_ok o -> evok ev -> wfct L false c0 -> wfct L false c1 -> wfct L false out ->
    (forall x, In x (keys out) <-> In x (keys c0) \/ In x (keys c1)) ->
    exists v, bEvaluateInPlace pp o c0 c1 out ev = Ok v /\ wfct L false v /\ (forall x, In x (keys v) <-> In x (keys c0) \/ In x (keys c1)) /\
      forall x j, In x (keys v) -> (j <= L)%nat -> row (prows (comp v x)) j = brow ev c0 c1 x j.
  Proof.
    intros O EV W0 W1 WO KO. unfold bEvaluateInPlace.
    destruct (ids_of (o 0%nat) c0) as (ids0 & A0 & M0 & N0 & H0 & K0); [intros l; apply O|]. destruct (ids_of (o 1%nat) c1) as (ids1 & A1 & M1 & N1 & H1 & K1); [intros l; apply O|].
    rewrite A0, A1. cbn [rbind].
    pose proof (proj1 (proj2 W0)) as I0. pose proof (proj1 (proj2 W1)) as I1. pose proof (proj1 (proj2 WO)) as IO.
    destruct (wfct_comp pp _ _ _ _ WO IO) as (LO & FO & _). rewrite bFull2_ok by trivial. cbn [rbind].
    set (out1 := cset out id0 _). assert (KO1 : forall x, In x (keys out1) <-> In x (keys out)) by (intros x; apply keys_upd; exact IO).
    destruct (ids_of (o 2%nat) out1) as (idso & A2 & M2 & N2 & H2 & K2); [intros l; apply O|]. rewrite A2. cbn [rbind].
    set (G := fun x (p : poly N) => if negb (is_has ids0 x) then comp c1 x else if negb (is_has ids1 x) then comp c0 x else Pol (lvlQ2 pp L ev (prows (comp c0 x)) (prows (comp c1 x))) false).
    assert (SH : forall x, In x (keys out) -> length (prows (comp out1 x)) = S L /\ pntt (comp out1 x) = false).
    { intros x Hx. unfold out1. rewrite comp_cset. destruct (string_dec x id0) as [->|n]; [cbn [prows pntt]; unfold lvlQ2; rewrite tab_length; split; reflexivity|].
      destruct (wfct_comp pp _ _ _ _ WO Hx) as (B1 & B2 & _). split; assumption. }
    assert (PC : forall (p q : poly N), length (prows p) = S L -> length (prows q) = S L -> polyCopy p q = q).
    { intros p [rows fl] E1 E2. cbn [prows] in E2. apply polyCopy_full. congruence. }
    match goal with |- context[rfold ?f _ _] => destruct (loop1 f G (o 3%nat (keys idso)) out1) as (v & B1 & B2 & B3 & B4) end.
    - apply (Permutation_NoDup (Permutation_sym (O 3%nat (keys idso)))). exact M2.
    - apply mwf_mset. apply WO.
    - intros x Hx. apply (Permutation_in _ (O 3%nat (keys idso))) in Hx. apply K2 in Hx. tauto.
    - intros c id Hid Wc Kc Ec. apply (Permutation_in _ (O 3%nat (keys idso))) in Hid. apply K2 in Hid as [Hn Hid]. assert (HO := proj1 (KO1 id) Hid). destruct (SH id HO) as [S1 S2].
      unfold G. destruct (is_has ids0 id) eqn:E0; cbn [negb].
      + apply H0 in E0 as [_ E0]. destruct (is_has ids1 id) eqn:E1; cbn [negb].
        * apply H1 in E1 as [_ E1]. apply bFull2_ok; trivial; [apply Kc; exact Hid|rewrite Ec; exact S1|rewrite Ec; exact S2].
        * rewrite cget_comp by (apply Kc; exact Hid). cbn [rbind]. rewrite cget_comp by exact E0. cbn [rbind]. do 2 f_equal. apply PC; [rewrite Ec; exact S1|]. apply (wfct_comp pp _ _ _ _ W0 E0).
      + assert (J : In id (keys c1)). { destruct (proj1 (KO id) HO) as [J|J]; [|exact J]. assert (X : is_has ids0 id = true) by (apply H0; split; assumption). congruence. }
        rewrite cget_comp by (apply Kc; exact Hid). cbn [rbind]. rewrite cget_comp by exact J. cbn [rbind]. do 2 f_equal. apply PC; [rewrite Ec; exact S1|]. apply (wfct_comp pp _ _ _ _ W1 J).
    - exists v. split; [exact B1|].
      assert (KV : forall x, In x (keys v) <-> In x (keys c0) \/ In x (keys c1)) by (intros x; rewrite B3, KO1; apply KO).
      assert (RV : forall x, In x (keys v) -> length (prows (comp v x)) = S L /\ pntt (comp v x) = false /\ forall j, (j <= L)%nat -> row (prows (comp v x)) j = brow ev c0 c1 x j).
      { intros x Hx. apply B3 in Hx. assert (HO := proj1 (KO1 x) Hx). rewrite B4. unfold brow.
        destruct (in_dec string_dec x (o 3%nat (keys idso))) as [J|J].
        - apply (Permutation_in _ (O 3%nat (keys idso))) in J. apply K2 in J as [Hn _]. destruct (string_dec x id0); [contradiction|]. unfold G.
          destruct (is_has ids0 x) eqn:E0; cbn [negb].
          + apply H0 in E0 as [_ E0]. destruct (in_dec string_dec x (keys c0)); [|contradiction]. destruct (is_has ids1 x) eqn:E1; cbn [negb].
            * apply H1 in E1 as [_ E1]. destruct (in_dec string_dec x (keys c1)); [|contradiction]. cbn [prows pntt]. unfold lvlQ2 at 1. rewrite tab_length. split; [reflexivity|]. split; [reflexivity|]. intros j Hj. apply row_lvlQ2. exact Hj.
            * destruct (in_dec string_dec x (keys c1)) as [J1|J1]; [assert (X : is_has ids1 x = true) by (apply H1; split; assumption); congruence|]. destruct (wfct_comp pp _ _ _ _ W0 E0) as (Z1 & Z2 & _). repeat split; assumption.
          + destruct (in_dec string_dec x (keys c0)) as [J0|J0]; [assert (X : is_has ids0 x = true) by (apply H0; split; assumption); congruence|].
            destruct (proj1 (KO x) HO) as [J1|J1]; [contradiction|]. destruct (wfct_comp pp _ _ _ _ W1 J1) as (Z1 & Z2 & _). repeat split; assumption.
        - assert (E : x = id0). { destruct (string_dec x id0) as [e|n]; [exact e|]. exfalso. apply J. apply (Permutation_in _ (Permutation_sym (O 3%nat (keys idso)))). apply K2. split; [exact n|apply KO1; exact HO]. }
          subst x. unfold out1. rewrite comp_eq. cbn [prows pntt]. unfold lvlQ2 at 1. rewrite tab_length. split; [reflexivity|]. split; [reflexivity|]. intros j Hj. destruct (string_dec id0 id0); [|congruence]. apply row_lvlQ2. exact Hj. }
      split; [|split; [exact KV|intros x j Hx Hj; apply RV; assumption]].
      apply (wfct_intro pp); [exact B2|apply KV; left; exact I0|]. intros x Hx. destruct (RV x Hx) as (Z1 & Z2 & Z3). split; [exact Z1|]. split; [exact Z2|].
      intros j Hj. rewrite Z3 by exact Hj. assert (OK : okq (mq (Qi pp j))) by (apply (okQ pp WF j); pose proof L_lt; lia).
      assert (R0' : In x (keys c0) -> inr (Qi pp j) (row (prows (comp c0 x)) j)) by (intros H; apply (wfct_comp pp _ _ _ _ W0 H); exact Hj).
      assert (R1' : In x (keys c1) -> inr (Qi pp j) (row (prows (comp c1 x)) j)) by (intros H; apply (wfct_comp pp _ _ _ _ W1 H); exact Hj).
      unfold brow. destruct (string_dec x id0) as [->|n]; [apply EV; auto|]. apply KV in Hx. destruct (in_dec string_dec x (keys c0)); [|tauto]. destruct (in_dec string_dec x (keys c1)); [apply EV|]; auto.
  Qed.

  Lemma pv_row level (c : ct) x j : wfct level false c -> In x (keys c) -> pvalue (comp c x) j = row (prows (comp c x)) j.
  Proof. intros W H. destruct (wfct_comp pp _ _ _ _ W H) as (_ & F & _). unfold CtSpec.pvalue. rewrite F. reflexivity. Qed.

  Lemma bAddNew_ok (o : order) (c0 c1 : ct) : order_ok o -> wfct L false c0 -> wfct L false c1 ->
    exists v, bAddNew pp o c0 c1 = Ok v /\ wfct L false v /\ (forall x, In x (keys v) <-> In x (keys c0) \/ In x (keys c1)) /\
      forall s j, (j <= L)%nat -> eqm (mq (Qi pp j)) (phase s v j) (add (phase s c0 j) (phase s c1 j)).
  Proof.
    intros O W0 W1. unfold bAddNew. destruct (bNewBinary_ok o c0 c1 O (proj1 (proj2 W0))) as (out & A & WO & KO). rewrite A. cbn [rbind].
    destruct (bEval_ok o c0 c1 out r_add O) as (v & B1 & B2 & B3 & B4); trivial.
    { intros m a b X Y Z. apply r_add_ok; assumption. }
    { intros x. rewrite KO. destruct (string_dec x id0) as [->|n]; [|tauto]. split; [intros _; left|intros _; left]; apply W0. }
    exists v. split; [exact B1|]. split; [exact B2|]. split; [exact B3|]. intros s j Hj.
    eapply eqm_trans; [apply (phase_comb pp s c0 c1 v j _ R1 R1)|apply eqm_eq; ring]; first [apply W0|apply W1|apply B2|intros x Hx; apply B3; tauto|idtac].
    intros x Hx. assert (Hv : In x (keys v)) by (destruct Hx as [Hx| ->]; [exact Hx|apply B2]). rewrite (pv_row _ _ _ _ B2 Hv), B4 by assumption.
    assert (OK : okq (mq (Qi pp j))) by (apply (okQ pp WF j); pose proof L_lt; lia).
    assert (ADD : In x (keys c0) -> In x (keys c1) -> eqm (mq (Qi pp j)) (r_add (Qi pp j) (row (prows (comp c0 x)) j) (row (prows (comp c1 x)) j)) (add (mul R1 (pvalue (comp c0 x) j)) (mul R1 (pvalue (comp c1 x) j)))).
    { intros J0 J1. rewrite (pv_row _ _ _ _ W0 J0), (pv_row _ _ _ _ W1 J1). eapply eqm_trans; [apply r_add_ok; [exact OK|apply (wfct_comp pp _ _ _ _ W0 J0); exact Hj|apply (wfct_comp pp _ _ _ _ W1 J1); exact Hj]|]. apply eqm_eq. ring. }
    unfold brow. destruct (string_dec x id0) as [->|n]; [apply ADD; [apply W0|apply W1]|]. apply B3 in Hv.
    destruct (in_dec string_dec x (keys c0)) as [J0|J0]; [destruct (in_dec string_dec x (keys c1)) as [J1|J1]|].
    - apply ADD; assumption.
    - rewrite (pv_row _ _ _ _ W0 J0), (pvalue_none pp c1 x j J1). apply eqm_eq. ring.
    - destruct Hv as [Hv|Hv]; [contradiction|]. rewrite (pv_row _ _ _ _ W1 Hv), (pvalue_none pp c0 x j J0). apply eqm_eq. ring.
  Qed.

  Lemma bSubNew_ok (o : order) (c0 c1 : ct) : order_ok o -> wfct L false c0 -> wfct L false c1 ->
    exists v, bSubNew pp o c0 c1 = Ok v /\ wfct L false v /\ (forall x, In x (keys v) <-> In x (keys c0) \/ In x (keys c1)) /\
      forall s j, (j <= L)%nat -> eqm (mq (Qi pp j)) (phase s v j) (sub (phase s c0 j) (phase s c1 j)).
  Proof.
    intros O W0 W1. unfold bSubNew. destruct (bNewBinary_ok o c0 c1 O (proj1 (proj2 W0))) as (out & A & WO & KO). rewrite A. cbn [rbind].
    destruct (bEval_ok o c0 c1 out r_sub O) as (v & B1 & B2 & B3 & B4); trivial.
    { intros m a b X Y Z. apply r_sub_ok; assumption. }
    { intros x. rewrite KO. destruct (string_dec x id0) as [->|n]; [|tauto]. split; [intros _; left|intros _; left]; apply W0. }
    rewrite B1. cbn [rbind].
    destruct (ids_of (o 30%nat) c0) as (ids0 & A0 & M0 & N0 & H0 & K0); [intros l; apply O|]. destruct (ids_of (o 31%nat) v) as (idso & A2 & M2 & N2 & H2 & K2); [intros l; apply O|].
    rewrite A0, A2. cbn [rbind].
    match goal with |- context[rfold ?f ?l v] => assert (X : rfold f l v = rfold f (filter (fun id => negb (is_has ids0 id)) l) v);
      [|rewrite X; destruct (loop1 f (fun id p => Pol (lvlQ1 pp L r_neg (prows p)) (pntt p)) (filter (fun id => negb (is_has ids0 id)) l) v) as (w & C1 & C2 & C3 & C4)] end.
    - generalize (o 32%nat (keys idso)) v. induction l as [|y l IH]; intros b; [reflexivity|]. cbn [filter]. destruct (is_has ids0 y) eqn:E; cbn [negb].
      + cbn [rfold]. rewrite E. cbn [negb rbind]. apply IH.
      + cbn [rfold]. rewrite E. cbn [negb]. destruct (p <- cgetL b y L ;; Ok (cset b y (Pol (lvlQ1 pp L r_neg (prows p)) (pntt p)))); cbn [rbind]; [apply IH|reflexivity].
    - apply NoDup_filter. apply (Permutation_NoDup (Permutation_sym (O 32%nat (keys idso)))). exact M2.
    - apply B2.
    - intros x Hx. apply filter_In in Hx as [Hx _]. apply (Permutation_in _ (O 32%nat (keys idso))) in Hx. apply K2 in Hx. tauto.
    - intros c id Hid Wc Kc Ec. apply filter_In in Hid as [Hid F]. rewrite F. apply (Permutation_in _ (O 32%nat (keys idso))) in Hid. apply K2 in Hid as [Hn Hid].
      destruct (wfct_comp pp _ _ _ _ B2 Hid) as (Z1 & Z2 & _). rewrite cgetL_comp by (first [apply Kc; exact Hid|rewrite Ec; lia]). cbn [rbind]. rewrite Ec. reflexivity.
    - exists w. split; [exact C1|].
      assert (KW : forall x, In x (keys w) <-> In x (keys c0) \/ In x (keys c1)) by (intros x; rewrite C3; apply B3).
      assert (FI : forall x, In x (keys v) -> (In x (filter (fun id => negb (is_has ids0 id)) (o 32%nat (keys idso))) <-> x <> id0 /\ ~ In x (keys c0))).
      { intros x Hx. rewrite filter_In. assert (P : In x (o 32%nat (keys idso)) <-> x <> id0).
        { split; [intros J; apply (Permutation_in _ (O 32%nat (keys idso))) in J; apply K2 in J; tauto|]. intros J. apply (Permutation_in _ (Permutation_sym (O 32%nat (keys idso)))). apply K2. split; assumption. }
        rewrite P. destruct (is_has ids0 x) eqn:E; cbn [negb]; [apply H0 in E; intuition congruence|]. split; [|tauto]. intros [Q _]. split; [exact Q|]. intros J. assert (Y : is_has ids0 x = true) by (apply H0; tauto). congruence. }
      assert (RW : forall x, In x (keys v) -> wfpoly L false (comp w x) /\ forall j, (j <= L)%nat -> eqm (mq (Qi pp j)) (row (prows (comp w x)) j) (add (mul R1 (pvalue (comp c0 x) j)) (mul (opp R1) (pvalue (comp c1 x) j)))).
      { intros x Hx. pose proof (wfct_comp pp _ _ _ _ B2 Hx) as WV. destruct WV as (Z1 & Z2 & Z3). rewrite C4. specialize (FI x Hx).
        assert (OKj : forall j, (j <= L)%nat -> okq (mq (Qi pp j))) by (intros j Hj; apply (okQ pp WF j); pose proof L_lt; lia).
        destruct (in_dec string_dec x (filter (fun id => negb (is_has ids0 id)) (o 32%nat (keys idso)))) as [J|J].
        - apply FI in J as [Jn J]. destruct (proj1 (B3 x) Hx) as [|J1]; [contradiction|].
          assert (NG : forall j, (j <= L)%nat -> inr (Qi pp j) (r_neg (Qi pp j) (row (prows (comp v x)) j)) /\ eqm (mq (Qi pp j)) (r_neg (Qi pp j) (row (prows (comp v x)) j)) (opp (row (prows (comp v x)) j))) by (intros j Hj; apply r_neg_ok; [apply OKj; exact Hj|apply Z3; exact Hj]).
          split.
          + split; [cbn [prows]; unfold lvlQ1; apply tab_length|]. split; [exact Z2|]. intros j Hj. cbn [prows]. rewrite row_lvlQ1 by exact Hj. apply NG. exact Hj.
          + intros j Hj. cbn [prows]. rewrite row_lvlQ1 by exact Hj. eapply eqm_trans; [apply NG; exact Hj|]. rewrite B4 by assumption. unfold brow. destruct (string_dec x id0); [contradiction|]. destruct (in_dec string_dec x (keys c0)); [contradiction|].
            rewrite (pv_row _ _ _ _ W1 J1), (pvalue_none pp c0 x j J). apply eqm_eq. ring.
        - split; [split; [exact Z1|split; assumption]|]. intros j Hj. rewrite B4 by assumption.
          assert (SUB : In x (keys c0) -> In x (keys c1) -> eqm (mq (Qi pp j)) (r_sub (Qi pp j) (row (prows (comp c0 x)) j) (row (prows (comp c1 x)) j)) (add (mul R1 (pvalue (comp c0 x) j)) (mul (opp R1) (pvalue (comp c1 x) j)))).
          { intros J0 J1. rewrite (pv_row _ _ _ _ W0 J0), (pv_row _ _ _ _ W1 J1). eapply eqm_trans; [apply r_sub_ok; [apply OKj; exact Hj|apply (wfct_comp pp _ _ _ _ W0 J0); exact Hj|apply (wfct_comp pp _ _ _ _ W1 J1); exact Hj]|]. apply eqm_eq. ring. }
          unfold brow. destruct (string_dec x id0) as [->|n]; [apply SUB; [apply W0|apply W1]|].
          destruct (in_dec string_dec x (keys c0)) as [J0|J0]; [|exfalso; apply J; apply FI; tauto]. destruct (in_dec string_dec x (keys c1)) as [J1|J1]; [apply SUB; assumption|].
          rewrite (pv_row _ _ _ _ W0 J0), (pvalue_none pp c1 x j J1). apply eqm_eq. ring. }
      assert (WW : wfct L false w) by (apply (wfct_intro pp); [exact C2|apply KW; left; apply W0|intros x Hx; apply C3 in Hx; apply RW; exact Hx]).
      split; [exact WW|]. split; [exact KW|]. intros s j Hj.
      eapply eqm_trans; [apply (phase_comb pp s c0 c1 w j _ R1 (opp R1))|apply eqm_eq; ring]; first [apply W0|apply W1|exact C2|intros x Hx; apply KW; tauto|idtac].
      intros x Hx. assert (Hv : In x (keys w)) by (destruct Hx as [Hx| ->]; [exact Hx|apply WW]). rewrite (pv_row _ _ _ _ WW Hv). apply RW; [apply C3; exact Hv|exact Hj].
  Qed.
  (** c_0 + the sum of c_id * s_id over the parties whose key is in the set *)
  Definition part_phase (s : string -> R) (sks : gomap string (secretKey N)) (c : ct) (j : nat) : R :=
    add (pvalue (comp c id0) j) (Lsum (filter (fun id => if in_dec string_dec id (keys sks) then true else false) (parties c)) (fun id => mul (pvalue (comp c id) j) (s id))).
  Lemma bDecrypt_ok (o : order) (c : ct) s sks : order_ok o -> wfct L false c -> keys_ok pp (fun id => In id (parties c)) s sks ->
    exists p, bDecrypt pp o c sks = Ok p /\ wfpoly L false p /\ forall j, (j <= L)%nat -> eqm (mq (Qi pp j)) (row (prows p) j) (part_phase s sks c j).
  Proof.
    intros O W KO. pose proof W as (W1 & W2 & W3).
    destruct (CopyNew_ok (o 0%nat) c (O 0%nat) W1 W2) as (c1 & C1 & C2 & C3).
    pose proof (wfct_ext pp L false c c1 C2 C3 W) as Wc1.
    destruct (IDSetOf_ok (o 1%nat) c1 (O 1%nat)) as (ids & D1 & D2 & D3).
    set (s' := fun id => if in_dec string_dec id (keys sks) then s id else R0).
    assert (KE : forall x, In x (keys c1) <-> In x (keys c)) by (intros x; rewrite <- !(mget_In_keys seq_dec), C3; reflexivity).
    assert (KO' : keys_ok pp (fun id => In id (parties c)) s' sks).
    { destruct KO as [A B]. split; [exact A|]. intros id k Hk. destruct (B id k Hk) as [B1 B2]. split; [exact B1|]. intros Hid. unfold s'.
      destruct (in_dec string_dec id (keys sks)) as [|n]; [apply B2; exact Hid|]. exfalso. apply n. apply (mget_In_keys seq_dec). congruence. }
    destruct (decLoop_ok pp WF L false s' _ ids sks L_lt KO' (o 2%nat (keys sks)) c1 Wc1) as (c2 & E1 & E2 & E3 & E4).
    - apply (Permutation_NoDup (Permutation_sym (O 2%nat (keys sks)))). apply KO.
    - intros x. apply (Permutation_in _ (O 2%nat (keys sks))).
    - intros x X0 Hx. apply in_parties. split; [assumption|]. apply KE. exact Hx.
    - intros x Hx. apply D3.
    - exists (comp c2 id0). split; [|split; [apply (wfct_comp pp _ _ _ _ E2), E2|]].
      + unfold bDecrypt. rewrite C1. cbn [rbind]. rewrite D1. cbn [rbind]. rewrite E1. cbn [rbind]. apply cget_comp. apply E2.
      + intros j Hj. specialize (E4 j Hj). rewrite (phase_ext pp s' c1 c j C2 W1 C3) in E4.
        assert (Z2 : phase s' c2 j = row (prows (comp c2 id0)) j).
        { unfold CtSpec.phase. rewrite (pv_row L c2 id0 j E2 (proj1 (proj2 E2))). rewrite Lsum_zero; [ring|].
          intros x Hx. apply in_parties in Hx as [Nx Hx]. apply E3 in Hx as [_ Hx]. unfold s'.
          destruct (in_dec string_dec x (keys sks)) as [J|J]; [|ring].
          exfalso. apply Nx, Hx. apply (Permutation_in _ (Permutation_sym (O 2%nat (keys sks)))). exact J. }
        rewrite Z2 in E4. eapply eqm_trans; [exact E4|]. apply eqm_eq. unfold CtSpec.phase, part_phase. f_equal.
        generalize (parties c) as l. induction l as [|x l IH]; [reflexivity|]. cbn [Lsum filter]. unfold s' at 1. destruct (in_dec string_dec x (keys sks)); cbn [Lsum]; rewrite IH; [reflexivity|]. ring.
  Qed.
  Lemma part_full s sks (c : ct) j : incl (parties c) (keys sks) -> part_phase s sks c j = phase s c j.
  Proof.
    intros I. unfold part_phase, CtSpec.phase. f_equal. revert I. generalize (fun id => mul (pvalue (comp c id) j) (s id)) as f. generalize (parties c) as l. induction l as [|x l IH]; intros f I; [reflexivity|].
    cbn [filter]. destruct (in_dec string_dec x (keys sks)) as [|n]; [|exfalso; apply n, I; left; reflexivity]. cbn [Lsum]. rewrite IH; [reflexivity|]. intros y Hy. apply I. right. exact Hy.
  Qed.
  Lemma sub_diff q (a b c : R) : eqm q (sub (add a b) a) c -> eqm q b c.
  Proof. intros [x H]. exists x. rewrite <- H. ring. Qed.
  Lemma eqm_split q (p a b : R) : eqm q p a -> eqm q p (add a b) -> eqm q b R0.
  Proof. intros A B. assert (X : eqm q a (add a b)) by (eapply eqm_trans; [apply eqm_sym; exact A|exact B]). destruct X as [x H]. exists (opp x). replace b with (sub (add a b) a) by ring. rewrite H at 2. ring. Qed.
End Bfv.

(** ** C16: mkbfv Decrypt with the keys of all parties returns the decryption *)
Theorem C16_decrypt : forall N pp (o : IdSetModel.order) (c : ctT N) s sks, wfp N pp -> order_ok o -> wfct pp (maxLevel pp) false c ->
  keys_ok pp (fun id => In id (parties c)) s sks -> incl (parties c) (keys sks) ->
  exists p, bDecrypt pp o c sks = Ok p /\ wfpoly pp (maxLevel pp) false p /\ forall j, (j <= maxLevel pp)%nat -> eqm (mq (Qi pp j)) (row (prows p) j) (phase pp s c j).
Proof.
  intros N pp o c s sks WF O W KO I. destruct (bDecrypt_ok pp WF o c s sks O W KO) as (p & A & B & C). exists p. split; [exact A|]. split; [exact B|].
  intros j Hj. rewrite <- (part_full pp s sks c j I). apply C. exact Hj.
Qed.
Print Assumptions C16_decrypt.
(** with any key set it returns a polynomial (no panic): c_0 plus the contributions of the parties whose key is present *)
Theorem C16_partial_sum : forall N pp (o : IdSetModel.order) (c : ctT N) s sks, wfp N pp -> order_ok o -> wfct pp (maxLevel pp) false c ->
  keys_ok pp (fun id => In id (parties c)) s sks ->
  exists p, bDecrypt pp o c sks = Ok p /\ wfpoly pp (maxLevel pp) false p /\
    forall j, (j <= maxLevel pp)%nat -> eqm (mq (Qi pp j)) (row (prows p) j) (part_phase pp s sks c j).
Proof. intros N pp o c s sks WF O W KO. apply (bDecrypt_ok pp WF); assumption. Qed.
Print Assumptions C16_partial_sum.

Lemma ex_keys l : NoDup l -> keys_ok ex_pp (fun _ => True) (fun _ => ex_s) (map (fun id => (id, ex_sk id)) l) /\ keys (map (fun id => (id, ex_sk id)) l) = l.
Proof.
  intros ND. assert (K : keys (map (fun id => (id, ex_sk id)) l) = l) by (unfold keys; rewrite map_map; cbn; apply map_id). split; [|exact K]. split; [unfold mwf; rewrite K; exact ND|].
  intros id k Hk. assert (E : k = ex_sk id) by (revert Hk; generalize l as l'; induction l' as [|y l' IH]; cbn [map mget]; [discriminate|destruct (seq_dec id y); [subst; congruence|exact IH]]).
  subst k. split; [reflexivity|]. intros _. apply ex_sk_val.
Qed.
(** the expectation that a missing key is reported is false: a ciphertext of alice and bob decrypted with alice's key only gives,
    without any error, a polynomial that is not the decryption *)
Theorem C16_missing_key_refuted : exists (c : ctT 8) (sks : gomap string (secretKey 8)) p, wfp 8 ex_pp /\ order_ok ex_ord /\ wfct ex_pp (maxLevel ex_pp) false c /\
  parties c = ["alice"; "bob"]%string /\ keys sks = ["alice"]%string /\ keys_ok ex_pp (fun id => In id (parties c)) (fun _ => ex_s) sks /\
  bDecrypt ex_pp ex_ord c sks = Ok p /\ ~ eqm (mq (Qi ex_pp 0)) (row (prows p) 0) (phase ex_pp (fun _ => ex_s) c 0).
Proof.
  set (c := ex_ct 3 ["alice"; "bob"]%string). set (sks := map (fun id => (id, ex_sk id)) ["alice"]%string).
  assert (W : wfct ex_pp (maxLevel ex_pp) false c) by (apply (ex_ct_wf 3); [lia|exact ex_nd2]).
  destruct (ex_keys ["alice"%string]) as [KO KE]; [repeat constructor; cbn; tauto|]. fold sks in KO, KE.
  assert (KO' : keys_ok ex_pp (fun id => In id (parties c)) (fun _ => ex_s) sks) by (destruct KO as [A B]; split; [exact A|intros id k Hk; destruct (B id k Hk) as [B1 B2]; split; [exact B1|intros _; apply B2; exact I]]).
  destruct (C16_partial_sum 8 ex_pp ex_ord c (fun _ => ex_s) sks ex_wf ex_ord_ok W KO') as (p & A & B & C).
  exists c, sks, p. split; [exact ex_wf|]. split; [exact ex_ord_ok|]. split; [exact W|]. split; [reflexivity|]. split; [exact KE|]. split; [exact KO'|]. split; [exact A|].
  intros H. specialize (C 0%nat ltac:(lia)).
  assert (E : phase ex_pp (fun _ => ex_s) c 0 = add (part_phase ex_pp (fun _ => ex_s) sks c 0) (mul (row (prows (ex_pt false)) 0) ex_s)).
  { unfold phase, part_phase. rewrite KE. change (parties c) with ["alice"; "bob"]%string. change (filter _ ["alice"; "bob"]%string) with ["alice"%string]. cbn [Lsum].
    change (pvalue ex_pp (comp c "alice"%string) 0) with (row (prows (ex_pt false)) 0). change (pvalue ex_pp (comp c "bob"%string) 0) with (row (prows (ex_pt false)) 0).
    apply R_ext. intros i Hi. rewrite !co_add. rewrite co_R0. ring. }
  rewrite E in H. pose proof (eqm_split _ _ _ _ C H) as D. rewrite eqm_co in D. specialize (D 0%nat ltac:(lia)). destruct D as [z D]. revert D.
  change (mq (Qi ex_pp 0)) with 97. rewrite co_R0. set (v := co _ 0). assert (EV : v = 68) by (vm_compute; reflexivity). rewrite EV. lia.
Qed.
Print Assumptions C16_missing_key_refuted.

(** ** C45: addition and subtraction *)
Theorem C45_add : forall N pp (o : IdSetModel.order) (c0 c1 : ctT N), wfp N pp -> order_ok o -> wfct pp (maxLevel pp) false c0 -> wfct pp (maxLevel pp) false c1 ->
  exists v, bAddNew pp o c0 c1 = Ok v /\ wfct pp (maxLevel pp) false v /\ (forall x, In x (keys v) <-> In x (keys c0) \/ In x (keys c1)) /\
    forall s j, (j <= maxLevel pp)%nat -> eqm (mq (Qi pp j)) (phase pp s v j) (add (phase pp s c0 j) (phase pp s c1 j)).
Proof. intros N pp o c0 c1 WF O W0 W1. apply (bAddNew_ok pp WF); assumption. Qed.
Print Assumptions C45_add.
Theorem C45_sub : forall N pp (o : IdSetModel.order) (c0 c1 : ctT N), wfp N pp -> order_ok o -> wfct pp (maxLevel pp) false c0 -> wfct pp (maxLevel pp) false c1 ->
  exists v, bSubNew pp o c0 c1 = Ok v /\ wfct pp (maxLevel pp) false v /\ (forall x, In x (keys v) <-> In x (keys c0) \/ In x (keys c1)) /\
    forall s j, (j <= maxLevel pp)%nat -> eqm (mq (Qi pp j)) (phase pp s v j) (sub (phase pp s c0 j) (phase pp s c1 j)).
Proof. intros N pp o c0 c1 WF O W0 W1. apply (bSubNew_ok pp WF); assumption. Qed.
Print Assumptions C45_sub.
(** seen through Decrypt *)
Theorem C45_decrypt : forall N pp (o1 o2 o3 o4 : IdSetModel.order) (c0 c1 : ctT N) s sks (minus : bool), wfp N pp -> order_ok o1 -> order_ok o2 -> order_ok o3 -> order_ok o4 ->
  wfct pp (maxLevel pp) false c0 -> wfct pp (maxLevel pp) false c1 -> keys_ok pp (fun _ => True) s sks -> incl (parties c0) (keys sks) -> incl (parties c1) (keys sks) ->
  exists v p p0 p1, (if minus then bSubNew pp o1 c0 c1 else bAddNew pp o1 c0 c1) = Ok v /\
    bDecrypt pp o2 v sks = Ok p /\ bDecrypt pp o3 c0 sks = Ok p0 /\ bDecrypt pp o4 c1 sks = Ok p1 /\
    forall j, (j <= maxLevel pp)%nat -> eqm (mq (Qi pp j)) (row (prows p) j) ((if minus then sub else add) (row (prows p0) j) (row (prows p1) j)).
Proof.
  intros N pp o1 o2 o3 o4 c0 c1 s sks minus WF O1 O2 O3 O4 W0 W1 KO I0 I1.
  assert (X : exists v, (if minus then bSubNew pp o1 c0 c1 else bAddNew pp o1 c0 c1) = Ok v /\ wfct pp (maxLevel pp) false v /\ (forall x, In x (keys v) <-> In x (keys c0) \/ In x (keys c1)) /\
    forall s j, (j <= maxLevel pp)%nat -> eqm (mq (Qi pp j)) (phase pp s v j) ((if minus then sub else add) (phase pp s c0 j) (phase pp s c1 j))) by (destruct minus; [apply C45_sub|apply C45_add]; assumption).
  destruct X as (v & V1 & V2 & V3 & V4).
  assert (KS : forall P, keys_ok pp P s sks) by (intros P; destruct KO as [A B]; split; [exact A|]; intros id k Hk; destruct (B id k Hk) as [B1 B2]; split; [exact B1|intros _; apply B2; exact I]).
  destruct (C16_decrypt N pp o2 v s sks WF O2 V2 (KS _)) as (p & P1 & _ & P3).
  { intros x Hx. apply in_parties in Hx as [Hn Hx]. apply V3 in Hx as [Hx|Hx]; [apply I0|apply I1]; apply in_parties; split; assumption. }
  destruct (C16_decrypt N pp o3 c0 s sks WF O3 W0 (KS _) I0) as (p0 & Q1 & _ & Q3). destruct (C16_decrypt N pp o4 c1 s sks WF O4 W1 (KS _) I1) as (p1 & S1 & _ & S3).
  exists v, p, p0, p1. split; [exact V1|]. split; [exact P1|]. split; [exact Q1|]. split; [exact S1|]. intros j Hj.
  eapply eqm_trans; [apply P3; exact Hj|]. eapply eqm_trans; [apply V4; exact Hj|]. apply eqm_sym. destruct minus; [apply eqm_sub|apply eqm_add]; auto.
Qed.
Print Assumptions C45_decrypt.

(** ** C46: rotation and conjugation *)
Lemma bNew_same N pp (o : list string -> list string) ids (c : ctT N) : wfp N pp -> ord1_ok o -> wfct pp (maxLevel pp) false c -> (forall x, In x (keys ids) <-> x <> id0 /\ In x (keys c)) ->
  wfct pp (maxLevel pp) false (bNewCiphertext pp o ids : ctT N) /\ forall x, In x (keys (bNewCiphertext pp o ids : ctT N)) <-> In x (keys c).
Proof.
  intros WF O W K. destruct (C03_new_ciphertext N pp o ids (maxLevel pp) WF O (L_lt pp WF)) as (NW & NK & _). unfold bNewCiphertext. split; [exact NW|].
  intros x. rewrite NK, K. split; [intros [->|H]; [apply W|tauto]|]. intros H. destruct (string_dec x id0); tauto.
Qed.
Theorem C46_rotate_new : forall N pp (o : nat -> IdSetModel.order) crs (c : ctT N) k rk (s : string -> R N) B T, wfp N pp -> (forall n, order_ok (o n)) -> small_ok pp B ->
  wfct pp (maxLevel pp) false c ->
  let r := k mod Z.of_nat (N / 2) in
  (forall i, r <> 0 -> used_index crs r i -> exists a, mget Z.eq_dec crs i = Some a /\ crs_ok pp a) ->
  (forall i id, r <> 0 -> used_index crs r i -> In id (parties c) -> has_rot_key pp crs rk i B T id (s id)) ->
  exists v E, bRotateNew pp o crs c k rk = Ok v /\ wfct pp (maxLevel pp) false v /\ (forall x, In x (keys v) <-> In x (keys c)) /\
    bnd E (rot_count crs r * (Z.of_nat (length (parties c)) * switch_noise N pp (maxLevel pp) (dig_bound pp (maxLevel pp)) B T)) /\
    forall j, (j <= maxLevel pp)%nat -> eqm (mq (Qi pp j)) (phase pp s v j) (add (galois (5 ^ r) (phase pp s c j)) E).
Proof.
  intros N pp o crs c k rk s B T WF O SM W r HC HK. unfold bRotateNew. pose proof (L_lt pp WF) as HL. set (level := maxLevel pp) in *.
  pose proof (proj1 (wf_N _ _ WF)) as N2.
  destruct (ids_of (o 0%nat 1%nat) c) as (ids & I1 & _ & _ & _ & IK); [intros l; apply O|]. rewrite I1. cbn [rbind].
  destruct (bNew_same N pp (o 0%nat 2%nat) ids c WF (fun l => O 0%nat 2%nat l) W IK) as (NW & KO). set (out := bNewCiphertext pp (o 0%nat 2%nat) ids) in *.
  unfold bRotate. rewrite rotNorm_ok by exact N2. cbn [rbind]. fold r.
  assert (R0' : 0 <= r) by (apply Z.mod_pos_bound; pose proof (Nat.div_le_mono 2 N 2 ltac:(lia) N2); change (2 / 2)%nat with 1%nat in *; lia).
  unfold rot_count. destruct (Z.eqb_spec r 0) as [E|NE].
  - destruct (Copy_ok pp (o 0%nat 0%nat) level false out c (O 0%nat 0%nat) NW W KO) as (v & A & V1 & V2 & V3). rewrite A.
    exists v, R0. split; [reflexivity|]. split; [exact V1|]. split; [exact V2|]. split; [intros i Hi; rewrite co_R0; lia|].
    intros j Hj. rewrite V3, E. apply eqm_eq. rewrite Z.pow_0_r.
    rewrite (galois_aut 1 1) by (try reflexivity; exists 0; ring). rewrite aut_1 by lia. apply R_ext. intros i Hi. rewrite co_add, co_R0. ring.
  - destruct (CopyNew_ok (o 0%nat 0%nat) c (fun l => O 0%nat 0%nat l) (proj1 W) (proj1 (proj2 W))) as (tmp & A & T1 & T2). rewrite A. cbn [rbind].
    assert (WT : wfct pp level false tmp) by (apply (wfct_ext pp level false c); trivial).
    assert (KT : forall x, In x (keys tmp) <-> In x (keys c)) by (intros x; rewrite <- !(mget_In_keys seq_dec), T2; reflexivity).
    assert (PT : forall s j, phase pp s tmp j = phase pp s c j).
    { intros s' j. apply (phase_eq pp); [exact T1|apply W|exact KT|]. intros x Hx. unfold comp. rewrite T2. reflexivity. }
    assert (PL : length (parties tmp) = length (parties c)) by (apply parties_len; first [exact T1|apply W|exact KT]).
    assert (KOT : forall x, In x (keys out) <-> In x (keys tmp)) by (intros x; rewrite KO, KT; reflexivity).
    assert (PI : forall id, In id (parties tmp) -> In id (parties c)) by (intros id Hid; apply in_parties; apply in_parties in Hid; rewrite <- KT; exact Hid).
    destruct (mget Z.eq_dec crs r) as [a|] eqn:G.
    + destruct (HC r NE) as (a' & GA & CA); [left; split; [congruence|reflexivity]|].
      destruct (C22_rotate N pp level level false (o 0%nat) crs tmp r rk out s a' B T WF (O 0%nat) SM R0' ltac:(lia) WT NW KOT GA CA) as (v & E & A1 & A2 & A3 & A4 & A5).
      { intros id Hid. apply HK; [exact NE| |apply PI; exact Hid]. left. split; [congruence|reflexivity]. }
      rewrite A1. exists v, E. split; [reflexivity|]. split; [exact A2|]. split; [intros x; rewrite A3; apply KT|]. split; [rewrite Z.mul_1_l, <- PL; exact A4|].
      intros j Hj. rewrite <- PT. apply A5. exact Hj.
    + destruct (rotChain_ok pp WF o crs rk s B T level O SM HL (Z.to_nat r) 1 r tmp out ltac:(lia) ltac:(lia) ltac:(lia) WT NW KOT) as (v & E & A1 & A2 & A3 & A4 & A5).
      { intros i Hi Ti. rewrite Z.mul_1_l. assert (U : used_index crs r (2 ^ i)) by (right; split; [exact G|exists i; repeat split; assumption]).
        split; [apply HC; assumption|]. intros id Hid. apply HK; [exact NE|exact U|]. apply PI. exact Hid. }
      rewrite A1. exists v, E. split; [reflexivity|]. split; [exact A2|]. split; [intros x; rewrite A3; apply KT|].
      split; [rewrite <- PL; exact A4|].
      intros j Hj. eapply eqm_trans; [apply A5; exact Hj|]. rewrite Z.mul_1_l, PT. apply eqm_refl.
Qed.
Print Assumptions C46_rotate_new.
(** with m the plaintext polynomial (Delta times the message plus noise), slot j of both rows of the rotated message is slot j+k of the message,
    for every integer k; [w] is a primitive 2N-th root of unity modulo t *)
Theorem C46_rotate_slots : forall N pp t w k (m : R N) j, wfp N pp -> 0 < t -> (t | w ^ Z.of_nat N + 1) ->
  bfv_slot t w (galois (5 ^ (k mod Z.of_nat (N / 2))) m) j = bfv_slot t w m (Z.to_nat ((Z.of_nat j + k) mod Z.of_nat (N / 2))).
Proof.
  intros N pp t w k m j WF T D. pose proof (proj1 (wf_N _ _ WF)) as N2. assert (HP : 0 < Z.of_nat (N / 2)) by (pose proof (Nat.div_le_mono 2 N 2 ltac:(lia) N2); change (2 / 2)%nat with 1%nat in *; lia).
  assert (RB : 0 <= k mod Z.of_nat (N / 2) < Z.of_nat (N / 2)) by (apply Z.mod_pos_bound; exact HP). set (r := k mod Z.of_nat (N / 2)) in *.
  replace r with (Z.of_nat (Z.to_nat r)) by lia. rewrite C25_bfv_rotate by (trivial; apply (pow2N pp WF)). f_equal.
  apply Nat2Z.inj. rewrite Nat2Z.inj_mod, Nat2Z.inj_add, !Z2Nat.id by (try apply Z.mod_pos_bound; lia). unfold r. apply Z.add_mod_idemp_r. lia.
Qed.
Print Assumptions C46_rotate_slots.
Theorem C46_rotate_missing_key : forall N pp (o : nat -> IdSetModel.order) crs (c : ctT N) k rk id i, wfp N pp -> (forall n, order_ok (o n)) ->
  wfct pp (maxLevel pp) false c -> In id (parties c) ->
  let r := k mod Z.of_nat (N / 2) in r <> 0 -> used_index crs r i -> rk_get rk id i = Panic -> bRotateNew pp o crs c k rk = Panic.
Proof.
  intros N pp o crs c k rk id i WF O W Hid r NZ U G. unfold bRotateNew. pose proof (proj1 (wf_N _ _ WF)) as N2. apply in_parties in Hid as [NI Hid].
  assert (HP : 0 < Z.of_nat (N / 2)) by (pose proof (Nat.div_le_mono 2 N 2 ltac:(lia) N2); change (2 / 2)%nat with 1%nat in *; lia).
  assert (RB : 0 <= r) by (apply Z.mod_pos_bound; exact HP).
  destruct (IDSetOf (o 0%nat 1%nat) c); cbn [rbind]; [|reflexivity].
  unfold bRotate. rewrite rotNorm_ok by exact N2. cbn [rbind]. fold r. destruct (Z.eqb_spec r 0); [contradiction|].
  destruct (CopyNew_ok (o 0%nat 0%nat) c (fun l => O 0%nat 0%nat l) (proj1 W) (proj1 (proj2 W))) as (tmp & E & T3 & T4). rewrite E. cbn [rbind].
  assert (Ht : In id (keys tmp)) by (apply (mget_In_keys seq_dec); rewrite T4; apply (mget_In_keys seq_dec); exact Hid).
  destruct U as [[A ->]|(A & t & T1 & T2 & ->)].
  - destruct (mget Z.eq_dec crs r); [|congruence]. apply (Rotate_missing pp (o 0%nat) crs tmp r rk _ id); trivial.
  - rewrite A. apply (rotChain_missing pp o crs rk id O N2 NI (Z.to_nat r) 1 r t); trivial; try lia. rewrite Z.mul_1_l; exact G.
Qed.
Print Assumptions C46_rotate_missing_key.
Theorem C46_conjugate_new : forall N pp (o : IdSetModel.order) crs (c : ctT N) ck (s : string -> R N) a B T,
  wfp N pp -> order_ok o -> small_ok pp B -> wfct pp (maxLevel pp) false c -> mget Z.eq_dec crs (-2) = Some a -> crs_ok pp a ->
  (forall id, In id (parties c) -> has_conj_key pp crs ck B T id (s id)) ->
  exists v E, bConjugateNew pp o crs c ck = Ok v /\ wfct pp (maxLevel pp) false v /\ (forall x, In x (keys v) <-> In x (keys c)) /\
    bnd E (Z.of_nat (length (parties c)) * switch_noise N pp (maxLevel pp) (dig_bound pp (maxLevel pp)) B T) /\
    forall j, (j <= maxLevel pp)%nat -> eqm (mq (Qi pp j)) (phase pp s v j) (add (galois (-1) (phase pp s c j)) E).
Proof.
  intros N pp o crs c ck s a B T WF O SM W GA CA HK. unfold bConjugateNew.
  destruct (ids_of (o 60%nat) c) as (ids & I1 & _ & _ & _ & IK); [intros l; apply O|]. rewrite I1. cbn [rbind].
  destruct (bNew_same N pp (o 61%nat) ids c WF (fun l => O 61%nat l) W IK) as (NW & KO). set (out := bNewCiphertext pp (o 61%nat) ids) in *.
  destruct (CopyNew_ok (o 62%nat) c (fun l => O 62%nat l) (proj1 W) (proj1 (proj2 W))) as (tmp & A & T1 & T2). rewrite A. cbn [rbind].
  assert (WT : wfct pp (maxLevel pp) false tmp) by (apply (wfct_ext pp (maxLevel pp) false c); trivial).
  assert (KT : forall x, In x (keys tmp) <-> In x (keys c)) by (intros x; rewrite <- !(mget_In_keys seq_dec), T2; reflexivity).
  assert (PT : forall s j, phase pp s tmp j = phase pp s c j).
  { intros s' j. apply (phase_eq pp); [exact T1|apply W|exact KT|]. intros x Hx. unfold comp. rewrite T2. reflexivity. }
  assert (PL : length (parties tmp) = length (parties c)) by (apply parties_len; first [exact T1|apply W|exact KT]).
  destruct (C24_conjugate N pp o crs tmp ck out s a B T WF O SM WT NW) as (v & E & A1 & A2 & A3 & A4 & A5); trivial.
  { intros x. rewrite KO, KT. reflexivity. }
  { intros id Hid. apply HK. apply in_parties; apply in_parties in Hid; rewrite <- KT; exact Hid. }
  exists v, E. split; [exact A1|]. split; [exact A2|]. split; [intros x; rewrite A3; apply KT|]. split; [rewrite <- PL; exact A4|]. intros j Hj. rewrite <- PT. apply A5. exact Hj.
Qed.
Print Assumptions C46_conjugate_new.
Theorem C46_conjugate_missing_key : forall N pp (o : IdSetModel.order) crs (c : ctT N) ck id, wfp N pp -> order_ok o -> wfct pp (maxLevel pp) false c ->
  In id (parties c) -> ks_get ck id = Panic -> bConjugateNew pp o crs c ck = Panic.
Proof.
  intros N pp o crs c ck id WF O W Hid G. apply in_parties in Hid as [NI Hid]. unfold bConjugateNew. destruct (IDSetOf (o 60%nat) c); cbn [rbind]; [|reflexivity].
  destruct (CopyNew_ok (o 62%nat) c (fun l => O 62%nat l) (proj1 W) (proj1 (proj2 W))) as (tmp & E & T3 & T4). rewrite E. cbn [rbind].
  assert (Ht : In id (keys tmp)) by (apply (mget_In_keys seq_dec); rewrite T4; apply (mget_In_keys seq_dec); exact Hid).
  unfold Conjugate. destruct (ctLevel _); cbn [rbind]; [|reflexivity]. destruct (ids_of (o 0%nat) tmp) as (ids & I1 & _ & _ & _ & IK); [intros l; apply O|]. rewrite I1. cbn [rbind].
  destruct (ctLevel tmp); cbn [rbind]; [|reflexivity]. destruct (_ <? _)%nat; [reflexivity|].
  match goal with |- rbind ?e _ = _ => destruct e as [out'|]; cbn [rbind]; [|reflexivity] end.
  rewrite (rfold_panic _ _ id); [reflexivity| |intros b; rewrite G; reflexivity].
  apply (Permutation_in _ (Permutation_sym (O 2%nat (keys ids)))). apply IK. split; assumption.
Qed.
Print Assumptions C46_conjugate_missing_key.

(** the hypotheses are met: different party sets, keys of all parties *)
Example C45_nonvacuous : wfp 8 ex_pp /\ order_ok ex_ord /\ wfct ex_pp (maxLevel ex_pp) false (ex_ct 3 ["alice"%string]) /\ wfct ex_pp (maxLevel ex_pp) false (ex_ct 3 ["alice"; "bob"]%string) /\
  let sks := map (fun id => (id, ex_sk id)) ["bob"; "alice"]%string in
  keys_ok ex_pp (fun _ => True) (fun _ => ex_s) sks /\ incl (parties (ex_ct 3 ["alice"%string])) (keys sks) /\ incl (parties (ex_ct 3 ["alice"; "bob"]%string)) (keys sks).
Proof.
  split; [exact ex_wf|]. split; [exact ex_ord_ok|]. split; [apply (ex_ct_wf 3); [lia|exact ex_nd1]|]. split; [apply (ex_ct_wf 3); [lia|exact ex_nd2]|]. cbv zeta.
  destruct (ex_keys ["bob"; "alice"]%string) as [A B]; [repeat constructor; cbn; intuition discriminate|]. split; [exact A|]. rewrite B. split; intros x Hx; cbn in Hx |- *; tauto.
Qed.
Example C46_nonvacuous : exists (c : ctT 8) (rk : rotset 8) (ck : conjset 8), wfct ex_pp (maxLevel ex_pp) false c /\ parties c = ["alice"; "bob"]%string /\
  (forall i id, -1 mod 4 <> 0 -> used_index ex_crs (-1 mod 4) i -> In id (parties c) -> has_rot_key ex_pp ex_crs rk i 3 1 id ex_s) /\
  (forall i, -1 mod 4 <> 0 -> used_index ex_crs (-1 mod 4) i -> exists a, mget Z.eq_dec ex_crs i = Some a /\ crs_ok ex_pp a) /\
  (forall id, In id (parties c) -> has_conj_key ex_pp ex_crs ck 3 1 id ex_s) /\ (exists a, mget Z.eq_dec ex_crs (-2) = Some a /\ crs_ok ex_pp a).
Proof.
  destruct C23_nonvacuous as ([c sc] & rk & W & P & _ & _ & HK & _ & _ & _). cbn [cv] in *.
  destruct C20_nonvacuous as (op0 & op1 & out & _ & _ & _ & _ & P1 & _ & _ & _ & HC & _). rewrite P1 in HC.
  assert (UI : forall i, used_index ex_crs (-1 mod 4) i -> i = 1 \/ i = 2).
  { intros i [[A _]|(_ & t & T1 & T2 & ->)]; [exfalso; apply A; vm_compute; reflexivity|]. change (-1 mod 4) with 3 in T2. destruct (Z_lt_le_dec t 2) as [L|L]; [assert (t = 0 \/ t = 1) as [->| ->] by lia; cbn; tauto|].
    rewrite Z.bits_above_log2 in T2; [discriminate|lia|]. change (Z.log2 3) with 1. lia. }
  exists c, rk, (map (fun id => (id, ex_cjk id)) ["bob"; "alice"]%string). split; [exact W|]. split; [exact P|]. split; [|split; [|split]].
  - intros i id _ U Hid. apply HK; [|exact Hid]. destruct (UI i U) as [->| ->]; [exists 0|exists 1]; (split; [lia|split; [reflexivity|vm_compute; reflexivity]]).
  - intros i _ U. exists (crs_entry ex_pp (ex_u i)). apply ex_crs_get. destruct (UI i U) as [->| ->]; cbn; tauto.
  - intros id Hid. apply HC. rewrite P in Hid. exact Hid.
  - exists (crs_entry ex_pp (ex_u (-2))). apply ex_crs_get. cbn; tauto.
Qed.
