(** Multiplication with relinearisation (C20) and its hoisted form (C21). *)
From Verif Require Import Base IdSetModel KeySetModel NumTheory Negacyclic Ntt Word BasisExt BasisExtProofs Rows RlweModel KeyGenModel SchemeSpec ExtProd ExtProps Galois KeyGenProofs CtModel CtSpec CtProofs EncDecProofs KeySwitchModel Digits KsLoops RotProofs ConjProofs.
From Coq Require Import Znumtheory Setoid Morphisms.
Open Scope Z_scope.

Definition mul_noise (N : nat) (pp : rparams) (level n0 n1 : nat) (DB0 DB1 B T : Z) : Z :=
  (Z.of_nat n0 * (Z.of_nat n1 * (Z.of_nat (beta pp level) * (Z.of_nat N * (Z.of_nat N * DB0 * DB1) * (Z.of_nat N * T * B + Z.of_nat N * T * B))))
   + Z.of_nat n1 * (Z.of_nat N * T * slack (Pprod pp)) + Z.of_nat n0 * (Z.of_nat N * T * slack (Pprod pp))) / Pprod pp
  + Z.of_nat n0 * switch_noise N pp level (dig_bound pp level) B T.

Section Mul.
  Context {N : nat} (pp : rparams) (WF : wfp N pp).
  Notation R := (R N). Notation ct := (ctT N). Notation L := (maxLevel pp).
  Notation phase := (@phase N pp). Notation pvalue := (@pvalue N pp). Notation wfct := (@wfct N pp). Notation wfpoly := (@wfpoly N pp).
  Add Ring R_ring12 : (@R_ring_theory N).

  (** *** the hoisted routine without hoisted operands is the plain one *)
  Lemma rfold_ext {A B} (f g : B -> A -> res B) l : (forall b x, In x l -> f b x = g b x) -> forall b, rfold f l b = rfold g l b.
  Proof. induction l as [|x l IH]; intros H b; cbn; [reflexivity|]. rewrite H by (left; reflexivity). destruct (g b x); cbn; [|reflexivity]. apply IH. intros; apply H; right; assumption. Qed.
  Lemma bind_panic {A B} (r : res A) : rbind r (fun _ => Panic) = (Panic : res B).
  Proof. destruct r; reflexivity. Qed.
  Lemma vStage_hoisted level o crs rs op0 ids0 y (out : ct) : vStage pp level o crs rs op0 ids0 y out = vStageH pp level o crs rs None op0 ids0 y out.
  Proof.
    unfold vStage, vStageH. apply rfold_ext. intros c id _.
    destruct (rlk_get rs id) as [k|]; cbn [rbind]; [|reflexivity]. destruct (ExtOp pp level None op0 id y) as [w|]; cbn [rbind]; [|reflexivity].
    rewrite ext_is_hoisted. destruct (Decompose pp level (Pol w false)) as [dw|] eqn:E; cbn [rbind]; [|reflexivity].
    destruct (ExternalProductHoisted pp level dw (rlk_v k)); cbn [rbind]; [|reflexivity].
    destruct (cget c id0); cbn [rbind]; [|reflexivity]. destruct (cwr c id0 _) as [c'|]; cbn [rbind]; [|reflexivity].
    destruct (crs_get crs (-1)) as [u|]; cbn [rbind]; [|reflexivity]. rewrite ext_is_hoisted, E. reflexivity.
  Qed.
  Theorem MulAndRelin_is_hoisted o crs (op0 op1 : ct) rs out : MulAndRelin pp o crs op0 op1 rs out = MulAndRelinHoisted pp o crs op0 op1 None None rs out.
  Proof.
    unfold MulAndRelin, MulAndRelinHoisted. destruct (ctLevel out) as [level|]; cbn [rbind]; [|reflexivity]. destruct (ctLevel op0) as [l0|]; cbn [rbind]; [|reflexivity].
    destruct (l0 <? level)%nat; [reflexivity|]. destruct (IDSetOf _ op0); cbn [rbind]; [|reflexivity]. destruct (IDSetOf _ op1); cbn [rbind]; [|reflexivity].
    destruct (genVec _ _ _ _ _ _ _); cbn [rbind]; [|reflexivity]. destruct (genVec _ _ _ _ _ _ _); cbn [rbind]; [|reflexivity].
    destruct (prodStage _ _ _ _ _ _ _ _); cbn [rbind]; [|reflexivity]. destruct (xStage _ _ _ _ _ _ _ _); cbn [rbind]; [|reflexivity]. apply vStage_hoisted.
  Qed.
  (** hoisted operands holding the digits that the plain routine would compute give the same result *)
  Definition same_digits level (h : option (hoisted N)) (op : ct) : Prop := forall id, In id (parties op) -> hdig pp level h op id = hdig pp level None op id.
  Lemma ExtOp_same level h (op : ct) id key : hdig pp level h op id = hdig pp level None op id -> hdig pp level None op id <> Panic -> ExtOp pp level h op id key = ExtOp pp level None op id key.
  Proof.
    intros E H. destruct (hdig pp level None op id) as [ds|] eqn:E2; [|congruence]. rewrite (ExtOp_hdig pp level h op id ds) by assumption.
    rewrite (ExtOp_hdig pp level None op id ds) by assumption. reflexivity.
  Qed.
  Theorem MulHoisted_same (o : IdSetModel.order) crs (op0 op1 : ct) h0 h1 rs out level : order_ok o -> ctLevel out = Ok level ->
    same_digits level h0 op0 -> same_digits level h1 op1 ->
    (forall id, In id (parties op0) -> hdig pp level None op0 id <> Panic) -> (forall id, In id (parties op1) -> hdig pp level None op1 id <> Panic) ->
    MulAndRelinHoisted pp o crs op0 op1 h0 h1 rs out = MulAndRelin pp o crs op0 op1 rs out.
  Proof.
    intros O EL S0 S1 P0 P1. rewrite MulAndRelin_is_hoisted. unfold MulAndRelinHoisted. rewrite EL. cbn [rbind].
    destruct (ctLevel op0) as [l0|]; cbn [rbind]; [|reflexivity]. destruct (l0 <? level)%nat; [reflexivity|].
    destruct (IDSetOf_ok (o 0%nat) op0) as (ids0 & I1 & _ & I3); [intros l; apply O|]. rewrite I1. cbn [rbind].
    destruct (IDSetOf_ok (o 1%nat) op1) as (ids1 & J1 & _ & J3); [intros l; apply O|]. rewrite J1. cbn [rbind].
    assert (IL0 : forall n x, In x (o n (keys ids0)) -> In x (parties op0)).
    { intros n x Hx. apply (Permutation_in _ (O n (keys ids0))) in Hx. apply in_parties. apply I3. unfold is_has. apply mhas_In. assumption. }
    assert (IL1 : forall n x, In x (o n (keys ids1)) -> In x (parties op1)).
    { intros n x Hx. apply (Permutation_in _ (O n (keys ids1))) in Hx. apply in_parties. apply J3. unfold is_has. apply mhas_In. assumption. }
    assert (E0 : genVec pp level rlk_d h0 op0 rs (o 2%nat (keys ids0)) = genVec pp level rlk_d None op0 rs (o 2%nat (keys ids0))).
    { unfold genVec. rewrite (rfold_ext _ (fun acc id => ds <- hdig pp level None op0 id ;; k <- rlk_get rs id ;; macAdd pp level (rlk_d k) ds acc)); [reflexivity|].
      intros b x Hx. rewrite S0 by (apply (IL0 _ _ Hx)). reflexivity. }
    assert (E1 : genVec pp level rlk_b h1 op1 rs (o 3%nat (keys ids1)) = genVec pp level rlk_b None op1 rs (o 3%nat (keys ids1))).
    { unfold genVec. rewrite (rfold_ext _ (fun acc id => ds <- hdig pp level None op1 id ;; k <- rlk_get rs id ;; macAdd pp level (rlk_b k) ds acc)); [reflexivity|].
      intros b x Hx. rewrite S1 by (apply (IL1 _ _ Hx)). reflexivity. }
    rewrite E0, E1. destruct (genVec pp level rlk_d None op0 rs _) as [x|]; cbn [rbind]; [|reflexivity]. destruct (genVec pp level rlk_b None op1 rs _) as [y|]; cbn [rbind]; [|reflexivity].
    destruct (prodStage pp level o op0 op1 ids0 ids1 out) as [out1|]; cbn [rbind]; [|reflexivity].
    assert (E2 : xStage pp level o h1 op1 ids1 x out1 = xStage pp level o None op1 ids1 x out1).
    { unfold xStage. apply rfold_ext. intros c id Hid. apply IL1 in Hid. rewrite (ExtOp_same level h1) by auto. reflexivity. }
    rewrite E2. destruct (xStage pp level o None op1 ids1 x out1) as [out2|]; cbn [rbind]; [|reflexivity].
    unfold vStageH. apply rfold_ext. intros c id Hid. apply IL0 in Hid. rewrite (ExtOp_same level h0) by auto. reflexivity.
  Qed.

  (** *** sums of digits times keys *)
  Lemma genVec_ok level (sel : relinKey N -> swk N) h (op : ct) rs l (cf : string -> nat -> R) DB (dsf : string -> swk N) (Df : string -> nat -> R) (kf : string -> relinKey N) (fam : string -> nat -> mi -> R) :
    (level < length (Qm pp))%nat ->
    (forall id, In id l -> hdig pp level h op id = Ok (dsf id) /\ digits pp level (cf id) DB (dsf id) (Df id) /\ rlk_get rs id = Ok (kf id) /\ (beta pp level <= length (sel (kf id)))%nat /\
       forall k, (k < beta pp level)%nat -> mval pp level (nth k (sel (kf id)) dQP) (fam id k)) ->
    exists x, genVec pp level sel h op rs l = Ok x /\ length x = beta pp level /\
      forall k, (k < beta pp level)%nat -> mval pp level (nth k x dQP) (fun i => Lsum l (fun id => mul (fam id k i) (Df id k))).
  Proof.
    intros HL H. unfold genVec. set (f := fun acc id => _).
    assert (G : forall l acc (z : nat -> mi -> R), (forall id, In id l -> hdig pp level h op id = Ok (dsf id) /\ digits pp level (cf id) DB (dsf id) (Df id) /\ rlk_get rs id = Ok (kf id) /\ (beta pp level <= length (sel (kf id)))%nat /\
         forall k, (k < beta pp level)%nat -> mval pp level (nth k (sel (kf id)) dQP) (fam id k)) ->
       length acc = beta pp level -> (forall k i, (k < beta pp level)%nat -> vi pp level i -> inr (md pp i) (fqp (nth k acc dQP) i) /\ rep (md pp i) (fqp (nth k acc dQP) i) (z k i)) ->
       exists x, rfold f l acc = Ok x /\ length x = beta pp level /\
         forall k i, (k < beta pp level)%nat -> vi pp level i -> inr (md pp i) (fqp (nth k x dQP) i) /\ rep (md pp i) (fqp (nth k x dQP) i) (add (z k i) (Lsum l (fun id => mul (fam id k i) (Df id k))))).
    { clear H l. induction l as [|id l IH]; intros acc z H LA HA.
      - exists acc. split; [reflexivity|]. split; [assumption|]. intros k i K V. cbn [Lsum]. rewrite add_0_r. apply HA; assumption.
      - cbn [rfold]. destruct (H id (or_introl eq_refl)) as (H1 & [HD1 HD2] & H3 & H4 & H5). unfold f at 1. rewrite H1. cbn [rbind]. rewrite H3. cbn [rbind]. unfold macAdd.
        rewrite (rmapM_map _ (fun i => lvl3 pp level r_mont_add (nth i (sel (kf id)) dQP) (nth i (dsf id) dQP) (nth i acc dQP))).
        2:{ intros i Hi. apply in_seq in Hi. rewrite !(idx_nth _ _ dQP) by lia. reflexivity. }
        cbn [rbind]. destruct (IH (map (fun i => lvl3 pp level r_mont_add (nth i (sel (kf id)) dQP) (nth i (dsf id) dQP) (nth i acc dQP)) (seq 0 (beta pp level)))
           (fun k i => add (z k i) (mul (fam id k i) (Df id k)))) as (x & X1 & X2 & X3).
        + intros; apply H; right; assumption.
        + rewrite map_length, seq_length. reflexivity.
        + intros k i K V. rewrite (nth_map' _ _ _ 0%nat) by (rewrite seq_length; assumption). rewrite seq_nth by assumption. cbn [plus]. rewrite fqp_lvl3 by assumption.
          pose proof (okmod_md pp WF level i HL V) as OK. destruct (HD2 k K) as (_ & D2 & _). destruct (D2 i V) as [D3 D4]. destruct (H5 k K i V) as [M1 M2]. destruct (HA k i K V) as [A1 A2].
          destruct (rep_mont_add (md pp i) _ _ _ _ _ _ OK M1 (canon_wrd _ _ (proj2 OK) D3) A1 M2 D4 A2) as [Y1 Y2]. split; [apply canon_inr; assumption|assumption].
        + exists x. split; [exact X1|]. split; [exact X2|]. intros k i K V. destruct (X3 k i K V) as [Y1 Y2]. split; [exact Y1|].
          apply (rep_eqm _ _ _ _ Y2). apply eqm_eq. cbn [Lsum]. ring. }
    destruct (G l (tab (beta pp level) (fun _ => zeroQP pp level)) (fun _ _ => R0) H) as (x & X1 & X2 & X3).
    - apply tab_length.
    - intros k i K V. rewrite nth_tab by assumption. assert (E : fqp (zeroQP pp level : polyQP N) i = R0) by (destruct i as [j|j]; cbn in V; cbn [fqp zeroQP qpQ qpP]; unfold row; rewrite nth_tab by lia; reflexivity).
      rewrite E. pose proof (okmod_md pp WF level i HL V) as OK. split; [apply canon_inr; apply canon_zero; apply OK|apply rep_zero; assumption].
    - rewrite X1. cbn [rbind]. eexists. split; [reflexivity|]. split; [rewrite map_length; assumption|]. intros k K i V.
      rewrite (nth_map' _ _ _ dQP) by lia. rewrite fqp_lvl1 by assumption. pose proof (okmod_md pp WF level i HL V) as OK. destruct (X3 k i K V) as [Y1 Y2].
      assert (Wd : wrd (fqp (nth k x dQP) i)) by (apply (inr_wrd (md pp i)); [apply OK|assumption]).
      split; [apply canon_inr; apply r_mform_ok; [apply OK|assumption]|]. apply rep_mform; trivial. apply (rep_eqm _ _ _ _ Y2). apply eqm_eq. ring.
  Qed.

  (** *** products of the components *)
  Definition cr (c : ct) id j : R := row (prows (comp c id)) j.
  Lemma ids_list (ids : idset) (op : ct) l : mwf ids -> (forall x, is_has ids x = true <-> x <> id0 /\ In x (keys op)) -> Permutation l (keys ids) ->
    NoDup l /\ forall x, In x l <-> In x (parties op).
  Proof.
    intros W H P. split; [apply (Permutation_NoDup (Permutation_sym P)); assumption|]. intros x. rewrite in_parties, <- H. unfold is_has. rewrite mhas_In.
    split; apply Permutation_in; [assumption|apply Permutation_sym; assumption].
  Qed.
  Lemma wf_rows level lin fl (c : ct) id : (level <= lin)%nat -> wfct lin fl c -> In id (keys c) -> cgetL c id level = Ok (comp c id) /\ forall j, (j <= level)%nat -> inr (Qi pp j) (cr c id j).
  Proof.
    intros H Wc I. destruct (wfct_comp pp _ _ _ _ Wc I) as (A & _ & C). unfold cgetL. rewrite (cget_comp c id I). cbn [rbind]. destruct (Nat.leb_spec (length (prows (comp c id))) level); [lia|].
    split; [reflexivity|]. intros j Hj. apply C. lia.
  Qed.

  Lemma prodStage_ok level l0 l1 (o : IdSetModel.order) (op0 op1 : ct) ids0 ids1 out : order_ok o -> (level < length (Qm pp))%nat -> (level <= l0)%nat -> (level <= l1)%nat ->
    wfct l0 false op0 -> wfct l1 false op1 -> wfct level false out -> (forall x, In x (keys out) <-> In x (keys op0) \/ In x (keys op1)) ->
    mwf ids0 -> mwf ids1 -> (forall x, is_has ids0 x = true <-> x <> id0 /\ In x (keys op0)) -> (forall x, is_has ids1 x = true <-> x <> id0 /\ In x (keys op1)) ->
    exists out', prodStage pp level o op0 op1 ids0 ids1 out = Ok out' /\ wfct level false out' /\ (forall x, In x (keys out') <-> In x (keys out)) /\
      (forall j, (j <= level)%nat -> eqm (mq (Qi pp j)) (cr out' id0 j) (mul (cr op0 id0 j) (cr op1 id0 j))) /\
      forall x j, x <> id0 -> In x (keys out) -> (j <= level)%nat -> eqm (mq (Qi pp j)) (cr out' x j)
        (add (if in_dec string_dec x (parties op0) then mul (cr op0 x j) (cr op1 id0 j) else R0) (if in_dec string_dec x (parties op1) then mul (cr op0 id0 j) (cr op1 x j) else R0)).
  Proof.
    intros O HL H0 H1 W0 W1 WO KS M0 M1 S0 S1. unfold prodStage.
    destruct WO as (WO1 & WO2 & WO3). assert (WO : wfct level false out) by (split; [assumption|split; assumption]).
    pose proof (proj1 (proj2 W0)) as Z0. pose proof (proj1 (proj2 W1)) as Z1.
    destruct (wf_rows level l0 false op0 id0 H0 W0 Z0) as [G0 R0i]. destruct (wf_rows level l1 false op1 id0 H1 W1 Z1) as [G1 R1i].
    rewrite G0, G1. cbn [rbind].
    set (aN := lvlQ1 pp level r_mform (lvlQ1 pp level ntt (prows (comp op0 id0)))). set (bN := lvlQ1 pp level ntt (prows (comp op1 id0))). set (bM := lvlQ1 pp level r_mform bN).
    rewrite cwr_ok by assumption. cbn [rbind].
    assert (MF : forall (p : list R) j, (j <= level)%nat -> inr (Qi pp j) (row (lvlQ1 pp level r_mform (lvlQ1 pp level ntt p)) j) /\ repM (Qi pp j) (row (lvlQ1 pp level r_mform (lvlQ1 pp level ntt p)) j) (row p j)).
    { intros p j Hj. pose proof (okQ pp WF j ltac:(lia)) as K. rewrite !row_lvlQ1 by assumption.
      assert (Wn : wrd (ntt (Qi pp j) (row p j))) by (apply (canon_wrd (Qi pp j)); [apply K|apply ntt_canon; assumption]).
      split; [apply canon_inr; apply r_mform_ok; [apply K|assumption]|]. apply rep_mform; trivial. apply rep_ntt. assumption. }
    assert (PM : forall (m p : list R) (a : nat -> R) j, (j <= level)%nat -> inr (Qi pp j) (row m j) -> repM (Qi pp j) (row m j) (a j) ->
       canon (Qi pp j) (row (lvlQ2 pp level r_mont m (lvlQ1 pp level ntt p)) j) /\ rep (Qi pp j) (row (lvlQ2 pp level r_mont m (lvlQ1 pp level ntt p)) j) (mul (a j) (row p j))).
    { intros m p a j Hj I1 I2. pose proof (okQ pp WF j ltac:(lia)) as K. rewrite row_lvlQ2, row_lvlQ1 by assumption.
      assert (Wn : wrd (ntt (Qi pp j) (row p j))) by (apply (canon_wrd (Qi pp j)); [apply K|apply ntt_canon; assumption]).
      split; [apply r_mont_ok; [apply K|assumption|assumption]|]. apply rep_mont; trivial. apply rep_ntt. assumption. }
    set (out1 := cset out id0 _).
    destruct (ids_list ids0 op0 (o 4%nat (keys ids0)) M0 S0 (O 4%nat _)) as [ND0 IL0]. destruct (ids_list ids1 op1 (o 5%nat (keys ids1)) M1 S1 (O 5%nat _)) as [ND1 IL1].
    set (q0 := o 4%nat (keys ids0)) in *. set (q1 := o 5%nat (keys ids1)) in *.
    assert (K1 : forall x, In x (keys out1) <-> In x (keys out)) by (apply keys_upd; assumption).
    destruct (loop1 (fun c id => p <- cgetL op0 id level ;; cwr c id (lvlQ2 pp level r_mont bM (lvlQ1 pp level ntt (prows p))))
       (fun id p => Pol (lvlQ2 pp level r_mont bM (lvlQ1 pp level ntt (prows (comp op0 id)))) (pntt p)) q0 out1) as (c1 & A1 & A2 & A3 & A4); trivial.
    { apply mwf_mset. assumption. }
    { intros x Hx. apply K1, KS. left. apply IL0, in_parties in Hx. apply Hx. }
    { intros c id Hid Wc Kc Ec. apply IL0, in_parties in Hid. destruct (wf_rows level l0 false op0 id H0 W0 (proj2 Hid)) as [G _]. rewrite G. cbn [rbind].
      rewrite cwr_ok by (apply Kc, K1, KS; tauto). rewrite Ec. reflexivity. }
    rewrite A1. cbn [rbind].
    destruct (loop1 (fun c id => p <- cgetL op1 id level ;;
             if is_has ids0 id
             then q <- cget c id ;; cwr c id (lvlQ3 pp level r_mont_add aN (lvlQ1 pp level ntt (prows p)) (prows q))
             else cwr c id (lvlQ2 pp level r_mont aN (lvlQ1 pp level ntt (prows p))))
       (fun id p => Pol (if is_has ids0 id then lvlQ3 pp level r_mont_add aN (lvlQ1 pp level ntt (prows (comp op1 id))) (prows p)
                         else lvlQ2 pp level r_mont aN (lvlQ1 pp level ntt (prows (comp op1 id)))) (pntt p)) q1 c1) as (c2 & B1 & B2 & B3 & B4); trivial.
    { intros x Hx. apply A3, K1, KS. right. apply IL1, in_parties in Hx. apply Hx. }
    { intros c id Hid Wc Kc Ec. apply IL1, in_parties in Hid. destruct (wf_rows level l1 false op1 id H1 W1 (proj2 Hid)) as [G _]. rewrite G. cbn [rbind].
      assert (Ic : In id (keys c)) by (apply Kc, A3, K1, KS; tauto).
      destruct (is_has ids0 id); [rewrite (cget_comp c id Ic); cbn [rbind]|]; rewrite cwr_ok by assumption; rewrite Ec; reflexivity. }
    rewrite B1. cbn [rbind].
    assert (K2 : forall x, In x (keys c2) <-> In x (keys out)) by (intros x; rewrite B3, A3; apply K1).
    set (q2 := o 6%nat (keys c2)). assert (PQ : Permutation q2 (keys c2)) by apply O.
    destruct (loop1 (fun c id => q <- cget c id ;; cwr c id (lvlQ1 pp level intt (prows q))) (fun id p => Pol (lvlQ1 pp level intt (prows p)) (pntt p)) q2 c2) as (c3 & C1 & C2 & C3 & C4); trivial.
    { apply (Permutation_NoDup (Permutation_sym PQ)). assumption. }
    { intros x Hx. apply (Permutation_in _ PQ). assumption. }
    { intros c id Hid Wc Kc Ec. apply (Permutation_in _ PQ), Kc in Hid. rewrite (cget_comp c id Hid). cbn [rbind]. rewrite cwr_ok by assumption. rewrite Ec. reflexivity. }
    exists c3. split; [exact C1|].
    assert (K3 : forall x, In x (keys c3) <-> In x (keys out)) by (intros x; rewrite C3; apply K2).
    assert (E3 : forall x, In x (keys out) -> comp c3 x = Pol (lvlQ1 pp level intt (prows (comp c2 x))) (pntt (comp c2 x))).
    { intros x Hx. rewrite C4. destruct (in_dec string_dec x q2) as [|J]; [reflexivity|]. exfalso. apply J. apply (Permutation_in _ (Permutation_sym PQ)), K2. assumption. }
    assert (F1 : forall x, In x (keys out) -> pntt (comp out1 x) = false).
    { intros x Hx. unfold out1. rewrite comp_cset. destruct (string_dec x id0); cbn [pntt]; apply (wfct_comp pp _ _ _ _ WO); assumption. }
    assert (F2 : forall x, In x (keys out) -> pntt (comp c2 x) = false).
    { intros x Hx. rewrite B4. destruct (in_dec string_dec x q1); cbn [pntt]; rewrite A4; destruct (in_dec string_dec x q0); cbn [pntt]; apply F1; assumption. }
    split; [|split; [exact K3|split]].
    - split; [assumption|]. split; [apply K3; assumption|]. intros x p Hp.
      assert (Hx : In x (keys out)) by (apply K3; apply (mget_In_keys seq_dec); rewrite Hp; discriminate).
      assert (p = comp c3 x) by (unfold comp; rewrite Hp; reflexivity). subst p. rewrite (E3 x Hx), (F2 x Hx).
      split; [apply lvlQ1_len|]. split; [reflexivity|]. intros j Hj. cbn [prows]. rewrite row_lvlQ1 by assumption. apply canon_inr, intt_canon. apply (okQ pp WF). lia.
    - intros j Hj. unfold cr at 1. rewrite (E3 id0 WO2). cbn [prows]. rewrite row_lvlQ1 by assumption.
      assert (E2 : comp c2 id0 = comp out1 id0).
      { rewrite B4. destruct (in_dec string_dec id0 q1) as [J|_]; [apply IL1, in_parties in J; tauto|]. rewrite A4. destruct (in_dec string_dec id0 q0) as [J|_]; [apply IL0, in_parties in J; tauto|]. reflexivity. }
      rewrite E2. unfold out1. rewrite comp_eq. cbn [prows]. unfold bN. destruct (MF (prows (comp op0 id0)) j Hj) as [X1 X2]. fold aN in X1, X2.
      apply (PM aN (prows (comp op1 id0)) (fun j => row (prows (comp op0 id0)) j) j Hj X1 X2).
    - intros x j Nx Hx Hj. unfold cr at 1. rewrite (E3 x Hx). cbn [prows]. rewrite row_lvlQ1 by assumption.
      destruct (MF (prows (comp op0 id0)) j Hj) as [X1 X2]. fold aN in X1, X2. destruct (MF (prows (comp op1 id0)) j Hj) as [Y1 Y2]. fold bN in Y1, Y2. fold bM in Y1, Y2.
      pose proof (PM bM (prows (comp op0 x)) (fun j => row (prows (comp op1 id0)) j) j Hj Y1 Y2) as [P1 P2].
      pose proof (PM aN (prows (comp op1 x)) (fun j => row (prows (comp op0 id0)) j) j Hj X1 X2) as [Q1 Q2].
      change (rep (Qi pp j) (row (prows (comp c2 x)) j) (add (if in_dec string_dec x (parties op0) then mul (cr op0 x j) (cr op1 id0 j) else R0) (if in_dec string_dec x (parties op1) then mul (cr op0 id0 j) (cr op1 x j) else R0))).
      rewrite B4. destruct (in_dec string_dec x q1) as [J1|J1]; destruct (in_dec string_dec x (parties op1)) as [J1'|J1'].
      2,3: exfalso; rewrite IL1 in J1; tauto.
      + cbn [prows]. rewrite A4. destruct (in_dec string_dec x (parties op0)) as [J0|J0].
        * assert (HI : is_has ids0 x = true) by (apply S0; apply in_parties; assumption). rewrite HI.
          destruct (in_dec string_dec x q0) as [_|J]; [|exfalso; apply J, IL0; assumption]. cbn [prows]. rewrite row_lvlQ3, row_lvlQ1 by assumption. rewrite row_lvlQ2, row_lvlQ1 in P1, P2 by assumption.
          pose proof (okQ pp WF j ltac:(lia)) as K.
          assert (Wn : wrd (ntt (Qi pp j) (row (prows (comp op1 x)) j))) by (apply (canon_wrd (Qi pp j)); [apply K|apply ntt_canon; assumption]).
          rewrite row_lvlQ2, row_lvlQ1 by assumption.
          destruct (rep_mont_add (Qi pp j) (row aN j) (ntt (Qi pp j) (row (prows (comp op1 x)) j)) _ _ _ _ K X1 Wn (canon_inr _ _ P1) X2 (rep_ntt _ _ K) P2) as [_ Z2].
          apply (rep_eqm _ _ _ _ Z2). apply eqm_eq. unfold cr. ring.
        * assert (HI : is_has ids0 x = false) by (destruct (is_has ids0 x) eqn:E; [|reflexivity]; apply S0 in E; exfalso; apply J0, in_parties; assumption). rewrite HI.
          apply (rep_eqm _ _ _ _ Q2). apply eqm_eq. unfold cr. ring.
      + rewrite A4. destruct (in_dec string_dec x (parties op0)) as [J0|J0].
        * destruct (in_dec string_dec x q0) as [_|J]; [|exfalso; apply J, IL0; assumption]. cbn [prows]. apply (rep_eqm _ _ _ _ P2). apply eqm_eq. unfold cr. ring.
        * exfalso. apply KS in Hx. rewrite in_parties in J0, J1'. tauto.
  Qed.

  (** *** relinearisation keys *)
  Definition relin_ok (a u : swk N) (s r : R) B T (key : relinKey N) : Prop :=
    exists eb ed ev : nat -> R, (beta pp L <= length (rlk_b key))%nat /\ (beta pp L <= length (rlk_d key))%nat /\ (beta pp L <= length (rlk_v key))%nat /\ bnd s T /\ bnd r T /\
      forall k, (k < beta pp L)%nat -> bnd (eb k) B /\ bnd (ed k) B /\ bnd (ev k) B /\
        mval pp L (nth k (rlk_b key) dQP) (fun i => sub (eb k) (mul s (swk_val pp a k i))) /\
        mval pp L (nth k (rlk_d key) dQP) (fun i => sub (add (ed k) (mul (gad pp k i) s)) (mul r (swk_val pp a k i))) /\
        mval pp L (nth k (rlk_v key) dQP) (fun i => opp (add (add (ev k) (mul (gad pp k i) r)) (mul s (swk_val pp u k i)))).

  Lemma triple_x (p0 p1 : list string) ks (s : string -> R) (F : string -> nat -> R) (D1 : string -> nat -> R) :
    Lsum p1 (fun j => mul (s j) (Lsum ks (fun k => mul (Lsum p0 (fun i => F i k)) (D1 j k)))) = Lsum p0 (fun i => Lsum p1 (fun j => Lsum ks (fun k => mul (s j) (mul (F i k) (D1 j k))))).
  Proof.
    rewrite (Lsum_swap p0 p1). apply Lsum_ext. intros j _. rewrite (Lsum_swap p0 ks). rewrite <- Lsum_mul_l. apply Lsum_ext. intros k _. rewrite Lsum_mul_l. f_equal. rewrite Lsum_mul_r. reflexivity.
  Qed.
  Lemma triple_w (p0 p1 : list string) ks (r : string -> R) (G : string -> nat -> R) (D0 : string -> nat -> R) :
    Lsum p0 (fun i => mul (r i) (Lsum ks (fun k => mul (Lsum p1 (fun j => G j k)) (D0 i k)))) = Lsum p0 (fun i => Lsum p1 (fun j => Lsum ks (fun k => mul (r i) (mul (G j k) (D0 i k))))).
  Proof.
    apply Lsum_ext. intros i _. rewrite (Lsum_swap p1 ks). rewrite <- Lsum_mul_l. apply Lsum_ext. intros k _. rewrite Lsum_mul_l. f_equal. rewrite Lsum_mul_r. reflexivity.
  Qed.

  (** the cross terms: sum of s_j X_j minus sum of r_i W_i is the sum of a_i b_j s_i s_j up to a small error *)
  Lemma cross level (p0 p1 : list string) (s r : string -> R) (c0 c1 : string -> nat -> R) ds0 ds1 (D0 D1 : string -> nat -> R) DB0 DB1 (eb ed : string -> nat -> R) (sa : nat -> mi -> R)
      (Xf Wf : string -> list R) (R1 R2 : string -> R) B T : (level < length (Qm pp))%nat ->
    (forall i, In i p0 -> digits pp level (c0 i) DB0 (ds0 i) (D0 i)) -> (forall j, In j p1 -> digits pp level (c1 j) DB1 (ds1 j) (D1 j)) ->
    (forall id, In id p0 \/ In id p1 -> bnd (s id) T /\ bnd (r id) T /\ forall k, (k < beta pp level)%nat -> bnd (eb id k) B /\ bnd (ed id k) B) ->
    (forall j, In j p1 -> bnd (R1 j) (slack (Pprod pp)) /\ forall m, vi pp level m ->
       eqm (qmod pp m) (smul (Pprod pp) (frow (Xf j) m)) (sub (Lsum (seq 0 (beta pp level)) (fun k => mul (Lsum p0 (fun i => mul (sub (add (ed i k) (mul (gad pp k m) (s i))) (mul (r i) (sa k m))) (D0 i k))) (D1 j k))) (R1 j))) ->
    (forall i, In i p0 -> bnd (R2 i) (slack (Pprod pp)) /\ forall m, vi pp level m ->
       eqm (qmod pp m) (smul (Pprod pp) (frow (Wf i) m)) (sub (Lsum (seq 0 (beta pp level)) (fun k => mul (Lsum p1 (fun j => mul (sub (eb j k) (mul (s j) (sa k m))) (D1 j k))) (D0 i k))) (R2 i))) ->
    exists E, bnd E ((Z.of_nat (length p0) * (Z.of_nat (length p1) * (Z.of_nat (beta pp level) * (Z.of_nat N * (Z.of_nat N * DB0 * DB1) * (Z.of_nat N * T * B + Z.of_nat N * T * B))))
       + Z.of_nat (length p1) * (Z.of_nat N * T * slack (Pprod pp)) + Z.of_nat (length p0) * (Z.of_nat N * T * slack (Pprod pp))) / Pprod pp) /\
      forall j, (j <= level)%nat -> eqm (mq (Qi pp j)) (sub (Lsum p1 (fun y => mul (s y) (row (Xf y) j))) (Lsum p0 (fun x => mul (r x) (row (Wf x) j))))
        (add (Lsum p0 (fun x => Lsum p1 (fun y => mul (mul (c0 x j) (c1 y j)) (mul (s x) (s y))))) E).
  Proof.
    intros HL G0 G1 HB HX HW. set (ks := seq 0 (beta pp level)) in *.
    set (Err := add (sub (Lsum p0 (fun i => Lsum p1 (fun j => Lsum ks (fun k => mul (mul (D0 i k) (D1 j k)) (sub (mul (s j) (ed i k)) (mul (r i) (eb j k)))))))
                         (Lsum p1 (fun j => mul (s j) (R1 j)))) (Lsum p0 (fun i => mul (r i) (R2 i)))).
    destruct (div_P pp WF level (fun m => sub (Lsum p1 (fun y => mul (s y) (frow (Xf y) m))) (Lsum p0 (fun x => mul (r x) (frow (Wf x) m))))
       (fun m => Lsum p0 (fun x => Lsum p1 (fun y => mul (mul (cfam (c0 x) m) (cfam (c1 y) m)) (mul (s x) (s y))))) Err
       (Z.of_nat (length p0) * (Z.of_nat (length p1) * (Z.of_nat (beta pp level) * (Z.of_nat N * (Z.of_nat N * DB0 * DB1) * (Z.of_nat N * T * B + Z.of_nat N * T * B))))
       + Z.of_nat (length p1) * (Z.of_nat N * T * slack (Pprod pp)) + Z.of_nat (length p0) * (Z.of_nat N * T * slack (Pprod pp))) HL) as (E & E1 & _ & E2).
    - intros m V. cbv beta.
      transitivity (sub (Lsum p1 (fun y => mul (s y) (smul (Pprod pp) (frow (Xf y) m)))) (Lsum p0 (fun x => mul (r x) (smul (Pprod pp) (frow (Wf x) m))))).
      { apply eqm_eq. rewrite (Lsum_ext p1 (fun y => mul (s y) (smul (Pprod pp) (frow (Xf y) m))) (fun y => smul (Pprod pp) (mul (s y) (frow (Xf y) m)))) by (intros; rewrite !smul_cst; ring).
        rewrite (Lsum_ext p0 (fun x => mul (r x) (smul (Pprod pp) (frow (Wf x) m))) (fun y => smul (Pprod pp) (mul (r y) (frow (Wf y) m)))) by (intros; rewrite !smul_cst; ring).
        rewrite !Lsum_smul, !smul_cst. ring. }
      rewrite (Lsum_eqm (qmod pp m) p1 _ (fun j => sub (mul (s j) (Lsum ks (fun k => mul (Lsum p0 (fun i => mul (sub (add (ed i k) (mul (gad pp k m) (s i))) (mul (r i) (sa k m))) (D0 i k))) (D1 j k)))) (mul (s j) (R1 j)))).
      2:{ intros j Hj. destruct (HX j Hj) as [_ X]. rewrite (X m V). apply eqm_eq. ring. }
      rewrite (Lsum_eqm (qmod pp m) p0 (fun x => mul (r x) (smul (Pprod pp) (frow (Wf x) m))) (fun i => sub (mul (r i) (Lsum ks (fun k => mul (Lsum p1 (fun j => mul (sub (eb j k) (mul (s j) (sa k m))) (D1 j k))) (D0 i k)))) (mul (r i) (R2 i)))).
      2:{ intros i Hi. destruct (HW i Hi) as [_ X]. rewrite (X m V). apply eqm_eq. ring. }
      rewrite !Lsum_sub, (triple_x p0 p1 ks), (triple_w p0 p1 ks).
      set (A := Lsum p0 (fun i => Lsum p1 (fun j => Lsum ks (fun k => mul (s j) _)))). set (C := Lsum p0 (fun i => Lsum p1 (fun j => Lsum ks (fun k => mul (r i) _)))).
      assert (AC : eqm (qmod pp m) (sub A C) (add (smul (Pprod pp) (Lsum p0 (fun x => Lsum p1 (fun y => mul (mul (cfam (c0 x) m) (cfam (c1 y) m)) (mul (s x) (s y))))))
          (Lsum p0 (fun i => Lsum p1 (fun j => Lsum ks (fun k => mul (mul (D0 i k) (D1 j k)) (sub (mul (s j) (ed i k)) (mul (r i) (eb j k))))))))).
      { unfold A, C. rewrite <- Lsum_smul, <- Lsum_sub, <- Lsum_add. apply Lsum_eqm. intros i Hi. rewrite <- Lsum_smul, <- Lsum_sub, <- Lsum_add. apply Lsum_eqm. intros j Hj.
        rewrite <- Lsum_sub.
        rewrite (Lsum_ext ks _ (fun k => add (mul (gad pp k m) (mul (mul (D0 i k) (D1 j k)) (mul (s i) (s j)))) (mul (mul (D0 i k) (D1 j k)) (sub (mul (s j) (ed i k)) (mul (r i) (eb j k)))))) by (intros; ring).
        rewrite Lsum_add. apply eqm_add; [|reflexivity].
        apply (gad_sum pp WF level m (fun k => mul (mul (D0 i k) (D1 j k)) (mul (s i) (s j)))); trivial.
        intros k jj -> K Bk. cbn [cfam]. apply eqm_mul; [|reflexivity]. apply eqm_mul; [apply (G0 i Hi)|apply (G1 j Hj)]; assumption. }
      transitivity (add (sub (sub A C) (Lsum p1 (fun j => mul (s j) (R1 j)))) (Lsum p0 (fun i => mul (r i) (R2 i)))); [apply eqm_eq; ring|].
      rewrite AC. apply eqm_eq. unfold Err. ring.
    - unfold Err. apply bnd_add; [apply bnd_sub|].
      + apply Lsum_bnd. intros i Hi. apply Lsum_bnd. intros j Hj. unfold ks. rewrite <- (seq_length (beta pp level) 0) at 2. apply Lsum_bnd. intros k Hk. apply in_seq in Hk.
        destruct (HB i (or_introl Hi)) as (Bi1 & Bi2 & Bi3). destruct (HB j (or_intror Hj)) as (Bj1 & Bj2 & Bj3). destruct (Bi3 k ltac:(lia)) as [_ ?]. destruct (Bj3 k ltac:(lia)) as [? _].
        apply bnd_mul; [apply bnd_mul; [apply (G0 i Hi); lia|apply (G1 j Hj); lia]|]. apply bnd_sub; apply bnd_mul; assumption.
      + apply Lsum_bnd. intros j Hj. apply bnd_mul; [apply HB; right; assumption|apply HX; assumption].
      + apply Lsum_bnd. intros i Hi. apply bnd_mul; [apply HB; left; assumption|apply HW; assumption].
    - exists E. split; [exact E1|]. intros j Hj. apply E2. assumption.
  Qed.

  Definition party_digits level (h : option (hoisted N)) (op : ct) DB : Prop :=
    forall id, In id (parties op) -> exists ds D, hdig pp level h op id = Ok ds /\ digits pp level (row (prows (comp op id))) DB ds D.

  Lemma pval_row (c : ct) lev id j : wfct lev false c -> In id (keys c) -> pvalue (comp c id) j = cr c id j.
  Proof. intros Wc I. unfold CtSpec.pvalue, cr. destruct (wfct_comp pp _ _ _ _ Wc I) as (_ & F & _). rewrite F. reflexivity. Qed.

  Theorem MulHoisted_ok level l0 l1 (o : IdSetModel.order) crs (op0 op1 : ct) h0 h1 rs out (s r : string -> R) a u B T DB0 DB1 :
    order_ok o -> (level < length (Qm pp))%nat -> (level <= l0)%nat -> (level <= l1)%nat ->
    wfct l0 false op0 -> wfct l1 false op1 -> wfct level false out -> (forall x, In x (keys out) <-> In x (keys op0) \/ In x (keys op1)) ->
    mget Z.eq_dec crs (-1) = Some u -> crs_ok pp u ->
    (forall id, In id (parties op0) \/ In id (parties op1) -> exists key, rlk_get rs id = Ok key /\ relin_ok a u (s id) (r id) B T key) ->
    party_digits level h0 op0 DB0 -> party_digits level h1 op1 DB1 ->
    exists out' E, MulAndRelinHoisted pp o crs op0 op1 h0 h1 rs out = Ok out' /\ wfct level false out' /\ (forall x, In x (keys out') <-> In x (keys out)) /\
      bnd E (mul_noise N pp level (length (parties op0)) (length (parties op1)) DB0 DB1 B T) /\
      forall j, (j <= level)%nat -> eqm (mq (Qi pp j)) (phase s out' j) (add (mul (phase s op0 j) (phase s op1 j)) E).
  Proof.
    intros O HL H0 H1 W0 W1 WO KS GU CU HK HD0 HD1.
    set (p0 := parties op0) in *. set (p1 := parties op1) in *. pose proof (beta_mono pp WF level HL) as BM.
    (* choose keys, errors, digits *)
    pose (PK := fun id (y : relinKey N * (nat -> R) * (nat -> R) * (nat -> R)) => let '(key, eb, ed, ev) := y in rlk_get rs id = Ok key /\
      (beta pp L <= length (rlk_b key))%nat /\ (beta pp L <= length (rlk_d key))%nat /\ (beta pp L <= length (rlk_v key))%nat /\ bnd (s id) T /\ bnd (r id) T /\
      forall k, (k < beta pp L)%nat -> bnd (eb k) B /\ bnd (ed k) B /\ bnd (ev k) B /\
        mval pp L (nth k (rlk_b key) dQP) (fun i => sub (eb k) (mul (s id) (swk_val pp a k i))) /\
        mval pp L (nth k (rlk_d key) dQP) (fun i => sub (add (ed k) (mul (gad pp k i) (s id))) (mul (r id) (swk_val pp a k i))) /\
        mval pp L (nth k (rlk_v key) dQP) (fun i => opp (add (add (ev k) (mul (gad pp k i) (r id))) (mul (s id) (swk_val pp u k i))))).
    assert (CK : exists f, forall id, In id (p0 ++ p1) -> PK id (f id)).
    { apply (list_choice _ PK (RLK ""%string nil nil nil, fun _ => R0, fun _ => R0, fun _ => R0)). intros id Hid. apply in_app_or in Hid.
      destruct (HK id Hid) as (key & K1 & eb & ed & ev & K2). exists (key, eb, ed, ev). split; assumption. }
    destruct CK as [fk CK]. set (kf := fun id => fst (fst (fst (fk id)))). set (ebf := fun id => snd (fst (fst (fk id)))). set (edf := fun id => snd (fst (fk id))). set (evf := fun id => snd (fk id)).
    assert (CK' : forall id, In id p0 \/ In id p1 -> rlk_get rs id = Ok (kf id) /\
      (beta pp L <= length (rlk_b (kf id)))%nat /\ (beta pp L <= length (rlk_d (kf id)))%nat /\ (beta pp L <= length (rlk_v (kf id)))%nat /\ bnd (s id) T /\ bnd (r id) T /\
      forall k, (k < beta pp L)%nat -> bnd (ebf id k) B /\ bnd (edf id k) B /\ bnd (evf id k) B /\
        mval pp L (nth k (rlk_b (kf id)) dQP) (fun i => sub (ebf id k) (mul (s id) (swk_val pp a k i))) /\
        mval pp L (nth k (rlk_d (kf id)) dQP) (fun i => sub (add (edf id k) (mul (gad pp k i) (s id))) (mul (r id) (swk_val pp a k i))) /\
        mval pp L (nth k (rlk_v (kf id)) dQP) (fun i => opp (add (add (evf id k) (mul (gad pp k i) (r id))) (mul (s id) (swk_val pp u k i))))).
    { intros id Hid. specialize (CK id (in_or_app _ _ _ Hid)). unfold PK in CK. unfold kf, ebf, edf, evf. destruct (fk id) as [[[key eb] ed] ev]. exact CK. }
    clear CK PK HK. clearbody kf ebf edf evf. clear fk.
    pose (PD := fun level h (op : ct) DB id (y : swk N * (nat -> R)) => hdig pp level h op id = Ok (fst y) /\ digits pp level (row (prows (comp op id))) DB (fst y) (snd y)).
    destruct (list_choice p0 (PD level h0 op0 DB0) (nil, fun _ => R0)) as [fd0 CD0]; [intros id Hid; destruct (HD0 id Hid) as (ds & D & X1 & X2); exists (ds, D); split; assumption|].
    destruct (list_choice p1 (PD level h1 op1 DB1) (nil, fun _ => R0)) as [fd1 CD1]; [intros id Hid; destruct (HD1 id Hid) as (ds & D & X1 & X2); exists (ds, D); split; assumption|].
    unfold PD in CD0, CD1. clear PD HD0 HD1. set (D0 := fun id => snd (fd0 id)). set (D1 := fun id => snd (fd1 id)). set (ds0 := fun id => fst (fd0 id)) in *. set (ds1 := fun id => fst (fd1 id)) in *.
    (* start *)
    unfold MulAndRelinHoisted. rewrite (wfct_level pp _ _ _ WO). cbn [rbind]. rewrite (wfct_level pp _ _ _ W0). cbn [rbind]. destruct (Nat.ltb_spec l0 level); [lia|].
    destruct (IDSetOf_ok (o 0%nat) op0) as (ids0 & I1 & M0 & S0); [intros l; apply O|]. rewrite I1. cbn [rbind].
    destruct (IDSetOf_ok (o 1%nat) op1) as (ids1 & J1 & M1 & S1); [intros l; apply O|]. rewrite J1. cbn [rbind].
    pose proof W0 as (W01 & W02 & W03). pose proof W1 as (W11 & W12 & W13).
    destruct (ids_list ids0 op0 (o 2%nat (keys ids0)) M0 S0 (O 2%nat _)) as [ND2 IL2]. destruct (ids_list ids1 op1 (o 3%nat (keys ids1)) M1 S1 (O 3%nat _)) as [ND3 IL3].
    fold p0 in IL2. fold p1 in IL3.
    assert (NP0 : NoDup p0) by (apply parties_nodup; assumption). assert (NP1 : NoDup p1) by (apply parties_nodup; assumption).
    assert (PP2 : Permutation (o 2%nat (keys ids0)) p0) by (apply NoDup_Permutation; assumption).
    assert (PP3 : Permutation (o 3%nat (keys ids1)) p1) by (apply NoDup_Permutation; assumption).
    destruct (genVec_ok level rlk_d h0 op0 rs (o 2%nat (keys ids0)) (fun id => row (prows (comp op0 id))) DB0 ds0 D0 kf (fun id k i => sub (add (edf id k) (mul (gad pp k i) (s id))) (mul (r id) (swk_val pp a k i))) HL) as (x & X1 & X2 & X3).
    { intros id Hid. apply IL2 in Hid. destruct (CD0 id Hid) as [Y1 Y2]. destruct (CK' id (or_introl Hid)) as (Y3 & _ & Y4 & _ & _ & _ & Y5).
      split; [exact Y1|]. split; [exact Y2|]. split; [exact Y3|]. split; [lia|]. intros k K. apply (mval_mono pp level); [assumption|]. apply Y5. lia. }
    destruct (genVec_ok level rlk_b h1 op1 rs (o 3%nat (keys ids1)) (fun id => row (prows (comp op1 id))) DB1 ds1 D1 kf (fun id k i => sub (ebf id k) (mul (s id) (swk_val pp a k i))) HL) as (y & Y1 & Y2 & Y3).
    { intros id Hid. apply IL3 in Hid. destruct (CD1 id Hid) as [Z1 Z2]. destruct (CK' id (or_intror Hid)) as (Z3 & Z4 & _ & _ & _ & _ & Z5).
      split; [exact Z1|]. split; [exact Z2|]. split; [exact Z3|]. split; [lia|]. intros k K. apply (mval_mono pp level); [assumption|]. apply Z5. lia. }
    rewrite X1. cbn [rbind]. rewrite Y1. cbn [rbind].
    assert (X3' : forall k, (k < beta pp level)%nat -> mval pp level (nth k x dQP) (fun m => Lsum p0 (fun i => mul (sub (add (edf i k) (mul (gad pp k m) (s i))) (mul (r i) (swk_val pp a k m))) (D0 i k)))).
    { intros k K. apply (mval_eqm pp level _ _ _ (X3 k K)). intros m V. apply eqm_eq. apply Lsum_perm. assumption. }
    assert (Y3' : forall k, (k < beta pp level)%nat -> mval pp level (nth k y dQP) (fun m => Lsum p1 (fun j => mul (sub (ebf j k) (mul (s j) (swk_val pp a k m))) (D1 j k)))).
    { intros k K. apply (mval_eqm pp level _ _ _ (Y3 k K)). intros m V. apply eqm_eq. apply Lsum_perm. assumption. }
    clear X3 Y3.
    destruct (prodStage_ok level l0 l1 o op0 op1 ids0 ids1 out O HL H0 H1 W0 W1 WO KS M0 M1 S0 S1) as (c1 & C11 & C12 & C13 & C14 & C15). fold p0 p1 in C15.
    rewrite C11. cbn [rbind].
    (* the products X_j *)
    pose (PX := fun j (w : list R * R) => ExtOp pp level h1 op1 j x = Ok (fst w) /\ length (fst w) = S level /\ (forall i, (i <= level)%nat -> canon (Qi pp i) (row (fst w) i)) /\
       bnd (snd w) (slack (Pprod pp)) /\ forall m, vi pp level m ->
       eqm (qmod pp m) (smul (Pprod pp) (frow (fst w) m)) (sub (Lsum (seq 0 (beta pp level)) (fun k => mul (Lsum p0 (fun i => mul (sub (add (edf i k) (mul (gad pp k m) (s i))) (mul (r i) (swk_val pp a k m))) (D0 i k))) (D1 j k))) (snd w))).
    destruct (list_choice p1 PX (nil, R0)) as [fx CX].
    { intros j Hj. destruct (CD1 j Hj) as [Z1 Z2]. destruct (hoist_gen pp WF level (ds1 j) x _ _ DB1 (D1 j) HL Z2 ltac:(lia) X3') as (w & Rm & T1 & T2 & T3 & T4 & T5).
      exists (w, Rm). unfold PX. cbn [fst snd]. rewrite (ExtOp_hdig pp level h1 op1 j (ds1 j) x Z1). repeat (split; [assumption|]). exact T5. }
    unfold PX in CX. clear PX. set (Xf := fun j => fst (fx j)) in *. set (R1 := fun j => snd (fx j)) in *.
    (* the products W_i and what they are switched to *)
    pose (PW := fun i (w : list R * R * (swk N * list R * list R * R)) => let '(wr, Rm, (dw, ov, ou, E)) := w in
       ExtOp pp level h0 op0 i y = Ok wr /\ length wr = S level /\ (forall i, (i <= level)%nat -> canon (Qi pp i) (row wr i)) /\
       bnd Rm (slack (Pprod pp)) /\ (forall m, vi pp level m ->
       eqm (qmod pp m) (smul (Pprod pp) (frow wr m)) (sub (Lsum (seq 0 (beta pp level)) (fun k => mul (Lsum p1 (fun j => mul (sub (ebf j k) (mul (s j) (swk_val pp a k m))) (D1 j k))) (D0 i k))) Rm)) /\
       Decompose pp level (Pol wr false) = Ok dw /\ ExternalProductHoisted pp level dw (rlk_v (kf i)) = Ok ov /\ ExternalProductHoisted pp level dw u = Ok ou /\
       length ov = S level /\ length ou = S level /\ (forall j, (j <= level)%nat -> canon (Qi pp j) (row ov j) /\ canon (Qi pp j) (row ou j)) /\
       bnd E (switch_noise N pp level (dig_bound pp level) B T) /\
       forall j, (j <= level)%nat -> eqm (mq (Qi pp j)) (add (row ov j) (mul (s i) (row ou j))) (add (mul (row wr j) (opp (r i))) E)).
    destruct (list_choice p0 PW (nil, R0, (nil, nil, nil, R0))) as [fw CW].
    { intros i Hi. destruct (CD0 i Hi) as [Z1 Z2]. destruct (hoist_gen pp WF level (ds0 i) y _ _ DB0 (D0 i) HL Z2 ltac:(lia) Y3') as (w & Rm & T1 & T2 & T3 & T4 & T5).
      destruct (CK' i (or_introl Hi)) as (Q1 & _ & _ & Q4 & Q5 & Q6 & Q7).
      destruct (Decompose_digits pp WF level level (Pol w false) ltac:(lia) HL) as (dw & DW1 & DW2 & DW3).
      { unfold inv_form. cbn [pntt prows]. split; [lia|]. intros j Hj. apply canon_inr. apply T3. assumption. }
      unfold inv_form in DW3. cbn [pntt prows] in DW3.
      destruct (hoist_switch pp WF level dw (rlk_v (kf i)) u (row w) (dig_bound pp level) (fun k => digR pp level k w) (opp (r i)) (s i) (fun k => opp (evf i k)) (swk_val pp u) B T) as (ov & ou & E & V1 & V2 & V3 & V4 & V5 & V6 & V7); trivial.
      - lia.
      - destruct CU as [CU _]. lia.
      - intros k K. apply (mval_eqm pp level _ (fun m => opp (add (add (evf i k) (mul (gad pp k m) (r i))) (mul (s i) (swk_val pp u k m))))).
        + apply (mval_mono pp level); [assumption|]. apply Q7. lia.
        + intros m V. apply eqm_eq. ring.
      - intros k K. apply (mval_mono pp level); [assumption|]. apply (swk_mval pp WF); [assumption|lia].
      - intros k K. apply bnd_opp. apply Q7. lia.
      - exists (w, Rm, (dw, ov, ou, E)). unfold PW. rewrite (ExtOp_hdig pp level h0 op0 i (ds0 i) y Z1). repeat (split; [assumption|]). exact V7. }
    set (Wf := fun i => fst (fst (fw i))). set (R2 := fun i => snd (fst (fw i))). set (dwf := fun i => fst (fst (fst (snd (fw i))))). set (ovf := fun i => snd (fst (fst (snd (fw i))))).
    set (ouf := fun i => snd (fst (snd (fw i)))). set (e2 := fun i => snd (snd (fw i))).
    assert (CW' : forall i, In i p0 -> ExtOp pp level h0 op0 i y = Ok (Wf i) /\ length (Wf i) = S level /\ (forall j, (j <= level)%nat -> canon (Qi pp j) (row (Wf i) j)) /\
       bnd (R2 i) (slack (Pprod pp)) /\ (forall m, vi pp level m ->
       eqm (qmod pp m) (smul (Pprod pp) (frow (Wf i) m)) (sub (Lsum (seq 0 (beta pp level)) (fun k => mul (Lsum p1 (fun j => mul (sub (ebf j k) (mul (s j) (swk_val pp a k m))) (D1 j k))) (D0 i k))) (R2 i))) /\
       Decompose pp level (Pol (Wf i) false) = Ok (dwf i) /\ ExternalProductHoisted pp level (dwf i) (rlk_v (kf i)) = Ok (ovf i) /\ ExternalProductHoisted pp level (dwf i) u = Ok (ouf i) /\
       length (ovf i) = S level /\ length (ouf i) = S level /\ (forall j, (j <= level)%nat -> canon (Qi pp j) (row (ovf i) j) /\ canon (Qi pp j) (row (ouf i) j)) /\
       bnd (e2 i) (switch_noise N pp level (dig_bound pp level) B T) /\
       forall j, (j <= level)%nat -> eqm (mq (Qi pp j)) (add (row (ovf i) j) (mul (s i) (row (ouf i) j))) (add (mul (row (Wf i) j) (opp (r i))) (e2 i))).
    { intros i Hi. specialize (CW i Hi). unfold PW in CW. unfold Wf, R2, dwf, ovf, ouf, e2. destruct (fw i) as [[w Rm] [[[dw ov] ou] E]]. exact CW. }
    clear CW PW. clearbody Wf R2 dwf ovf ouf e2. clear fw.
    (* X stage *)
    unfold xStage. destruct (ids_list ids1 op1 (o 7%nat (keys ids1)) M1 S1 (O 7%nat _)) as [ND7 IL7]. fold p1 in IL7. set (q7 := o 7%nat (keys ids1)) in *.
    pose proof C12 as (C12a & C12b & C12c).
    destruct (loop1 (fun c id => e <- ExtOp pp level h1 op1 id x ;; q <- cget c id ;; cwr c id (lvlQ2 pp level r_add (prows q) e))
       (fun id p => Pol (lvlQ2 pp level r_add (prows p) (Xf id)) (pntt p)) q7 c1) as (c2 & E1 & E2 & E3 & E4); trivial.
    { intros z Hz. apply C13, KS. right. apply IL7, in_parties in Hz. apply Hz. }
    { intros c id Hid Wc Kc Ec. apply IL7 in Hid. destruct (CX id Hid) as [Z1 _]. fold (Xf id) in Z1. rewrite Z1. cbn [rbind]. apply in_parties in Hid.
      assert (Ic : In id (keys c)) by (apply Kc, C13, KS; tauto). rewrite (cget_comp c id Ic). cbn [rbind]. rewrite cwr_ok by assumption. rewrite Ec. reflexivity. }
    rewrite E1. cbn [rbind].
    assert (K2 : forall z, In z (keys c2) <-> In z (keys out)) by (intros z; rewrite E3; apply C13).
    assert (P2 : forall z, In z (keys out) -> wfpoly level false (comp c2 z) /\ forall j, (j <= level)%nat -> eqm (mq (Qi pp j)) (cr c2 z j) (add (cr c1 z j) (if in_dec string_dec z p1 then row (Xf z) j else R0))).
    { intros z Hz. pose proof (wfct_comp pp _ _ _ z C12 ltac:(apply C13; assumption)) as (Z1 & Z2 & Z3). unfold cr. rewrite E4. destruct (in_dec string_dec z q7) as [J|J]; destruct (in_dec string_dec z p1) as [J'|J'].
      2,3: exfalso; rewrite IL7 in J; tauto.
      - cbn [prows]. rewrite Z2. destruct (CX z J') as (_ & _ & Z4 & _). fold (Xf z) in Z4.
        assert (RA : forall j, (j <= level)%nat -> inr (Qi pp j) (r_add (Qi pp j) (row (prows (comp c1 z)) j) (row (Xf z) j)) /\ eqm (mq (Qi pp j)) (r_add (Qi pp j) (row (prows (comp c1 z)) j) (row (Xf z) j)) (add (row (prows (comp c1 z)) j) (row (Xf z) j))).
        { intros j Hj. apply r_add_ok; [apply (okQ pp WF); lia|apply Z3; assumption|apply canon_inr, Z4; assumption]. }
        split; [apply wfpoly_tab; intros j Hj; apply RA; assumption|]. intros j Hj. rewrite row_lvlQ2 by assumption. apply RA. assumption.
      - split; [split; [assumption|split; assumption]|]. intros j Hj. apply eqm_eq. symmetry. apply add_0_r. }
    (* V stage *)
    unfold vStageH. destruct (ids_list ids0 op0 (o 8%nat (keys ids0)) M0 S0 (O 8%nat _)) as [ND8 IL8]. fold p0 in IL8. set (q8 := o 8%nat (keys ids0)) in *.
    assert (IO0 : In id0 (keys out)) by apply WO.
    match goal with |- exists out' E, rfold ?ff q8 c2 = _ /\ _ =>
      destruct (loop2 ff (fun id p => Pol (lvlQ2 pp level r_add (prows p) (ovf id)) (pntt p)) (fun id p => Pol (lvlQ2 pp level r_add (prows p) (ouf id)) (pntt p)) q8 c2) as (c3 & F1 & F2 & F3 & F4 & F5); trivial end.
    { intros z Hz. apply K2, KS. left. apply IL8, in_parties in Hz. apply Hz. }
    { apply K2. assumption. }
    { intros J. apply IL8, in_parties in J. tauto. }
    { intros c id Hid Wc Kc Ec. apply IL8 in Hid. destruct (CK' id (or_introl Hid)) as (Z0 & _). destruct (CW' id Hid) as (Z1 & _ & _ & _ & _ & Z2 & Z3 & Z4 & _). apply in_parties in Hid. destruct Hid as [Nid Hid].
      assert (Ic : In id (keys c)) by (apply Kc, K2, KS; tauto). assert (I0 : In id0 (keys c)) by (apply Kc, K2; assumption).
      rewrite Z0. cbn [rbind]. rewrite Z1. cbn [rbind]. rewrite Z2. cbn [rbind]. rewrite Z3. cbn [rbind]. rewrite (cget_comp c id0 I0). cbn [rbind]. rewrite cwr_ok by assumption. cbn [rbind].
      unfold crs_get. rewrite GU. cbn [rbind]. rewrite Z4. cbn [rbind]. rewrite cget_neq by assumption. rewrite (cget_comp c id Ic). cbn [rbind].
      rewrite cwr_ok by (apply keys_cset; tauto). rewrite comp_neq by assumption. rewrite Ec. reflexivity. }
    destruct (cross level p0 p1 s r (fun i => row (prows (comp op0 i))) (fun j => row (prows (comp op1 j))) ds0 ds1 D0 D1 DB0 DB1 ebf edf (swk_val pp a) Xf Wf R1 R2 B T HL) as (E & EB & EE).
    { intros i Hi. apply CD0. assumption. }
    { intros j Hj. apply CD1. assumption. }
    { intros id Hid. destruct (CK' id Hid) as (_ & _ & _ & _ & Z1 & Z2 & Z3). split; [assumption|]. split; [assumption|]. intros k K. split; apply Z3; lia. }
    { intros j Hj. destruct (CX j Hj) as (_ & _ & _ & Z1 & Z2). split; assumption. }
    { intros i Hi. destruct (CW' i Hi) as (_ & _ & _ & Z1 & Z2 & _). split; assumption. }
    exists c3, (add E (Lsum p0 e2)). split; [exact F1|].
    assert (K3 : forall z, In z (keys c3) <-> In z (keys out)) by (intros z; rewrite F3; apply K2).
    destruct (fold_add_rows pp WF level false ovf q8 (comp c2 id0) HL (proj1 (P2 id0 IO0))) as [FA1 FA2].
    { intros i Hi j Hj. apply IL8 in Hi. destruct (CW' i Hi) as (_ & _ & _ & _ & _ & _ & _ & _ & _ & _ & Z & _). apply canon_inr. apply Z. assumption. }
    cbv zeta in FA1, FA2. rewrite <- F4 in FA1, FA2.
    assert (PP8 : Permutation q8 p0) by (apply NoDup_Permutation; assumption).
    assert (P3 : forall z, z <> id0 -> In z (keys out) -> wfpoly level false (comp c3 z) /\ forall j, (j <= level)%nat -> eqm (mq (Qi pp j)) (cr c3 z j) (add (cr c2 z j) (if in_dec string_dec z p0 then row (ouf z) j else R0))).
    { intros z Nz Hz. destruct (P2 z Hz) as [(Z1 & Z2 & Z3) _]. unfold cr. rewrite F5 by assumption. destruct (in_dec string_dec z q8) as [J|J]; destruct (in_dec string_dec z p0) as [J'|J'].
      2,3: exfalso; rewrite IL8 in J; tauto.
      - cbn [prows]. rewrite Z2. destruct (CW' z J') as (_ & _ & _ & _ & _ & _ & _ & _ & _ & _ & Z4 & _).
        assert (RA : forall j, (j <= level)%nat -> inr (Qi pp j) (r_add (Qi pp j) (row (prows (comp c2 z)) j) (row (ouf z) j)) /\ eqm (mq (Qi pp j)) (r_add (Qi pp j) (row (prows (comp c2 z)) j) (row (ouf z) j)) (add (row (prows (comp c2 z)) j) (row (ouf z) j))).
        { intros j Hj. apply r_add_ok; [apply (okQ pp WF); lia|apply Z3; assumption|apply canon_inr, Z4; assumption]. }
        split; [apply wfpoly_tab; intros j Hj; apply RA; assumption|]. intros j Hj. rewrite row_lvlQ2 by assumption. apply RA. assumption.
      - split; [split; [assumption|split; assumption]|]. intros j Hj. apply eqm_eq. symmetry. apply add_0_r. }
    assert (W3 : wfct level false c3).
    { split; [assumption|]. split; [apply K3; assumption|]. intros z p Hp. assert (Hz : In z (keys out)) by (apply K3; apply (mget_In_keys seq_dec); rewrite Hp; discriminate).
      assert (p = comp c3 z) by (unfold comp; rewrite Hp; reflexivity). subst p. destruct (string_dec z id0) as [->|n]; [exact FA1|apply P3; assumption]. }
    split; [exact W3|]. split; [exact K3|]. split.
    { unfold mul_noise. apply bnd_add; [exact EB|]. apply Lsum_bnd. intros i Hi. destruct (CW' i Hi) as (_ & _ & _ & _ & _ & _ & _ & _ & _ & _ & _ & Z & _). exact Z. }
    intros j Hj. unfold CtSpec.phase. fold p0 p1.
    rewrite (pval_row c3 level id0 j W3) by (apply K3; assumption). rewrite (pval_row op0 l0 id0 j W0 W02), (pval_row op1 l1 id0 j W1 W12).
    set (pu := parties c3).
    assert (NPU : NoDup pu) by (apply parties_nodup; assumption).
    assert (IP0 : incl p0 pu) by (intros z Hz; apply in_parties in Hz; apply in_parties; split; [tauto|apply K3, KS; tauto]).
    assert (IP1 : incl p1 pu) by (intros z Hz; apply in_parties in Hz; apply in_parties; split; [tauto|apply K3, KS; tauto]).
    rewrite (Lsum_ext p0 (fun id => mul (pvalue (comp op0 id) j) (s id)) (fun id => mul (cr op0 id j) (s id))) by (intros z Hz; apply in_parties in Hz; rewrite (pval_row op0 l0 z j W0) by tauto; reflexivity).
    rewrite (Lsum_ext p1 (fun id => mul (pvalue (comp op1 id) j) (s id)) (fun id => mul (cr op1 id j) (s id))) by (intros z Hz; apply in_parties in Hz; rewrite (pval_row op1 l1 z j W1) by tauto; reflexivity).
    transitivity (add (add (mul (cr op0 id0 j) (cr op1 id0 j)) (Lsum p0 (fun i => row (ovf i) j)))
       (Lsum pu (fun z => add (add (if in_dec string_dec z p0 then mul (mul (cr op0 z j) (cr op1 id0 j)) (s z) else R0) (if in_dec string_dec z p1 then mul (mul (cr op0 id0 j) (cr op1 z j)) (s z) else R0))
                              (add (if in_dec string_dec z p1 then mul (s z) (row (Xf z) j) else R0) (if in_dec string_dec z p0 then mul (s z) (row (ouf z) j) else R0))))).
    { apply eqm_add.
      - unfold cr at 1. rewrite FA2 by assumption. rewrite (Lsum_perm _ _ (fun i => row (ovf i) j) PP8). apply eqm_add; [|reflexivity].
        destruct (P2 id0 IO0) as [_ Z]. fold (cr c2 id0 j). rewrite (Z j Hj). destruct (in_dec string_dec id0 p1) as [J|J]; [apply in_parties in J; tauto|]. rewrite C14 by assumption. apply eqm_eq. apply add_0_r.
      - apply Lsum_eqm. intros z Hz. apply in_parties in Hz. destruct Hz as [Nz Hz]. rewrite (pval_row c3 level z j W3 Hz). apply K3 in Hz.
        destruct (P3 z Nz Hz) as [_ Z3]. destruct (P2 z Hz) as [_ Z2]. rewrite (Z3 j Hj), (Z2 j Hj), (C15 z j Nz Hz Hj).
        apply eqm_eq. destruct (in_dec string_dec z p0), (in_dec string_dec z p1); ring. }
    rewrite !Lsum_add. rewrite !Lsum_sub_ind by assumption.
    specialize (EE j Hj). fold (cr op0) in EE. 
    transitivity (add (add (add (add (mul (cr op0 id0 j) (cr op1 id0 j)) (mul (Lsum p0 (fun z => mul (cr op0 z j) (s z))) (cr op1 id0 j))) (mul (cr op0 id0 j) (Lsum p1 (fun z => mul (cr op1 z j) (s z)))))
        (Lsum p0 (fun i => add (row (ovf i) j) (mul (s i) (row (ouf i) j))))) (Lsum p1 (fun z => mul (s z) (row (Xf z) j)))).
    { apply eqm_eq. rewrite Lsum_add. rewrite <- Lsum_mul_l, <- Lsum_mul_r.
      rewrite (Lsum_ext p0 (fun z => mul (mul (cr op0 z j) (cr op1 id0 j)) (s z)) (fun z => mul (mul (cr op0 z j) (s z)) (cr op1 id0 j))) by (intros; ring).
      rewrite (Lsum_ext p1 (fun z => mul (mul (cr op0 id0 j) (cr op1 z j)) (s z)) (fun z => mul (cr op0 id0 j) (mul (cr op1 z j) (s z)))) by (intros; ring). ring. }
    rewrite (Lsum_eqm (mq (Qi pp j)) p0 (fun i => add (row (ovf i) j) (mul (s i) (row (ouf i) j))) (fun i => sub (e2 i) (mul (r i) (row (Wf i) j)))).
    2:{ intros i Hi. destruct (CW' i Hi) as (_ & _ & _ & _ & _ & _ & _ & _ & _ & _ & _ & _ & Z). rewrite (Z j Hj). apply eqm_eq. ring. }
    rewrite Lsum_sub.
    set (SX := Lsum p1 (fun z => mul (s z) (row (Xf z) j))) in *. set (SW := Lsum p0 (fun i => mul (r i) (row (Wf i) j))) in *.
    transitivity (add (add (add (add (mul (cr op0 id0 j) (cr op1 id0 j)) (mul (Lsum p0 (fun z => mul (cr op0 z j) (s z))) (cr op1 id0 j))) (mul (cr op0 id0 j) (Lsum p1 (fun z => mul (cr op1 z j) (s z)))))
        (Lsum p0 e2)) (sub SX SW)); [apply eqm_eq; ring|].
    rewrite EE.
    assert (PRD : Lsum p0 (fun x => Lsum p1 (fun y => mul (mul (row (prows (comp op0 x)) j) (row (prows (comp op1 y)) j)) (mul (s x) (s y)))) = mul (Lsum p0 (fun z => mul (cr op0 z j) (s z))) (Lsum p1 (fun z => mul (cr op1 z j) (s z)))).
    { rewrite <- Lsum_mul_r. apply Lsum_ext. intros z Hz. rewrite <- Lsum_mul_l. apply Lsum_ext. intros w Hw. unfold cr. ring. }
    rewrite PRD. apply eqm_eq. ring.
  Qed.
End Mul.
