(** mkbfv multiplication with relinearisation (mkbfv/keyswitch_hoisted.go:39-207): what the product decrypts to. *)
From Verif Require Import Base IdSetModel KeySetModel NumTheory Negacyclic Ntt Word BasisExt BasisExtProofs DecompProofs Rows RlweModel SchemeSpec ExtProd ExtProps KeyGenModel Galois KeyGenProofs CtModel CtSpec CtProofs EncDecProofs KeySwitchModel Digits KsLoops RotProofs ConjProofs MulProofs BfvModel BfvMulModel BfvConv BfvGadget BfvDig BfvKey BfvCross.
From Coq Require Import Znumtheory Setoid Morphisms.
Open Scope Z_scope.

Lemma rfold_skip {A B} (p : A -> bool) (f : B -> A -> res B) l : forall c, rfold (fun c x => if p x then Ok c else f c x) l c = rfold f (filter (fun x => negb (p x)) l) c.
Proof. induction l as [|x l IH]; intros c; [reflexivity|]. cbn [rfold filter]. destruct (p x); cbn [negb rbind rfold]; [apply IH|]. destruct (f c x); cbn [rbind]; [apply IH|reflexivity]. Qed.
Lemma rfold_only {A B} (p : A -> bool) (f : B -> A -> res B) l : forall c, rfold (fun c x => if p x then f c x else Ok c) l c = rfold f (filter p l) c.
Proof. induction l as [|x l IH]; intros c; [reflexivity|]. cbn [rfold filter]. destruct (p x); cbn [rbind rfold]; [|apply IH]. destruct (f c x); cbn [rbind]; [apply IH|reflexivity]. Qed.

(** size of the error of one multiplication, scaled by QMul *)
Definition bmul_noise (N : nat) (b : bparams) (n0 n1 nu : nat) (DB0 DB1 B T : Z) : Z :=
  cross_noise N b n0 n1 DB0 DB1 B T + (slack (mprod b) + Z.of_nat nu * (Z.of_nat N * slack (mprod b) * T))
  + mprod b * (Z.of_nat n0 * switch_noise N (ppQ b) (maxLevel (ppQ b)) (dig_bound (ppQ b) (maxLevel (ppQ b))) B T).

Section Mul.
  Context {N : nat} (b : bparams) (WB : wfb N b).
  Notation R := (R N). Notation ct := (ctT N).
  Notation n := (length (bQ b)). Notation al := (alpha (ppQ b)). Notation pp := (ppQ b). Notation L := (maxLevel (ppQ b)). Notation be := (bbeta b).
  Hypothesis HD : (n mod al = 0)%nat.
  Let WF : wfp N pp := wf_ppQ b WB.
  Add Ring R_ring34 : (@R_ring_theory N).
  Notation cr := (@MulProofs.cr N).

  (** an operand over R: component id holds the residues (below 6q) of the integer polynomial Xv id *)
  Definition rct (c : ct) (Xv : string -> R) : Prop := mwf c /\ In id0 (keys c) /\ forall id, In id (keys c) -> rowsR b (prows (comp c id)) (Xv id).
  Definition iphase (s : string -> R) (c : ct) (Xv : string -> R) : R := add (Xv id0) (Lsum (parties c) (fun id => mul (Xv id) (s id))).

  Lemma LR_eq : levelR b = (n + n - 1)%nat.
  Proof. unfold levelR. rewrite <- (wb_len _ _ WB). reflexivity. Qed.
  Lemma npos : (0 < n)%nat. Proof. pose proof (wb_32 _ _ WB). lia. Qed.
  Lemma rct_get (c : ct) Xv id : rct c Xv -> In id (keys c) -> cgetL c id (levelR b) = Ok (comp c id).
  Proof.
    intros (_ & _ & H) I. unfold cgetL. rewrite (cget_comp c id I). cbn [rbind]. destruct (H id I) as [LL _]. rewrite LL, LR_eq. pose proof npos. destruct (Nat.leb_spec (n + n) (n + n - 1)); [lia|reflexivity].
  Qed.

  (** what component x of the product of the masked halves holds *)
  Definition prodv (op0 op1 : ct) (Xv Yv : string -> R) (x : string) : R :=
    if string_dec x id0 then mul (Xv id0) (Yv id0)
    else add (if in_dec string_dec x (parties op0) then mul (Xv x) (Yv id0) else R0) (if in_dec string_dec x (parties op1) then mul (Xv id0) (Yv x) else R0).

  Lemma bProdStage_ok (o : IdSetModel.order) (op0 op1 : ct) Xv Yv ids0 ids1 out : order_ok o -> rct op0 Xv -> rct op1 Yv ->
    wfct pp L false out -> (forall x, In x (keys out) <-> In x (keys op0) \/ In x (keys op1)) ->
    mwf ids0 -> mwf ids1 -> (forall x, is_has ids0 x = true <-> x <> id0 /\ In x (keys op0)) -> (forall x, is_has ids1 x = true <-> x <> id0 /\ In x (keys op1)) ->
    exists out' (Zf Rf : string -> R), bProdStage b o op0 op1 ids0 ids1 out = Ok out' /\ wfct pp L false out' /\ (forall x, In x (keys out') <-> In x (keys out)) /\
      forall x, In x (keys out) -> bnd (Rf x) (slack (mprod b)) /\ add (smul (mprod b) (Zf x)) (Rf x) = smul (bT b) (prodv op0 op1 Xv Yv x) /\
        forall j, (j <= L)%nat -> eqm (mq (Qi pp j)) (cr out' x j) (Zf x).
  Proof.
    intros O W0 W1 WO KS M0 M1 S0 S1. unfold bProdStage. pose proof npos as NP. pose proof LR_eq as LRE. pose proof (L_n b WB) as LN.
    pose proof WO as (WO1 & WO2 & WO3). pose proof W0 as (W01 & W02 & W03). pose proof W1 as (W11 & W12 & W13).
    rewrite (rct_get op0 Xv id0 W0 W02), (rct_get op1 Yv id0 W1 W12). cbn [rbind]. cbv zeta.
    assert (RG0 : forall id, In id (keys op0) -> cgetL op0 id (levelR b) = Ok (comp op0 id)) by (intros id Hid; apply (rct_get op0 Xv id W0 Hid)).
    assert (RG1 : forall id, In id (keys op1) -> cgetL op1 id (levelR b) = Ok (comp op1 id)) by (intros id Hid; apply (rct_get op1 Yv id W1 Hid)).
    set (LR := levelR b) in *.
    set (aN := lvlQ1 (ppR b) LR r_mform (lvlQ1 (ppR b) LR ntt (prows (comp op0 id0)))). set (bN := lvlQ1 (ppR b) LR ntt (prows (comp op1 id0))). set (bM := lvlQ1 (ppR b) LR r_mform bN).
    assert (OK : forall j, (j <= LR)%nat -> okmod (N := N) (Qi (ppR b) j)) by (intros j Hj; apply (okR b WB); lia).
    assert (MF : forall (p : list R) X j, rowsR b p X -> (j <= LR)%nat -> inr (Qi (ppR b) j) (row (lvlQ1 (ppR b) LR r_mform (lvlQ1 (ppR b) LR ntt p)) j) /\ repM (Qi (ppR b) j) (row (lvlQ1 (ppR b) LR r_mform (lvlQ1 (ppR b) LR ntt p)) j) X).
    { intros p X j [_ RP] Hj. pose proof (OK j Hj) as K. rewrite !row_lvlQ1 by assumption. destruct (RP j ltac:(lia)) as [_ RE].
      assert (Wn : wrd (ntt (Qi (ppR b) j) (row p j))) by (apply (canon_wrd (Qi (ppR b) j)); [apply K|apply ntt_canon; assumption]).
      split; [apply canon_inr; apply r_mform_ok; [apply K|assumption]|]. apply rep_mform; trivial. apply (rep_eqm _ _ (row p j)); [apply rep_ntt; assumption|exact RE]. }
    assert (NR : forall (p : list R) X j, rowsR b p X -> (j <= LR)%nat -> wrd (ntt (Qi (ppR b) j) (row p j)) /\ rep (Qi (ppR b) j) (ntt (Qi (ppR b) j) (row p j)) X).
    { intros p X j [_ RP] Hj. pose proof (OK j Hj) as K. destruct (RP j ltac:(lia)) as [_ RE]. split; [apply (canon_wrd (Qi (ppR b) j)); [apply K|apply ntt_canon; assumption]|].
      apply (rep_eqm _ _ (row p j)); [apply rep_ntt; assumption|exact RE]. }
    set (mM := fun (m p : list R) => lvlQ2 (ppR b) LR r_mont m (lvlQ1 (ppR b) LR ntt p)).
    assert (PM : forall (m p : list R) A X j, rowsR b p X -> (j <= LR)%nat -> inr (Qi (ppR b) j) (row m j) -> repM (Qi (ppR b) j) (row m j) A ->
       canon (Qi (ppR b) j) (row (mM m p) j) /\ rep (Qi (ppR b) j) (row (mM m p) j) (mul A X)).
    { intros m p A X j RP Hj I1 I2. pose proof (OK j Hj) as K. unfold mM. rewrite row_lvlQ2, row_lvlQ1 by assumption. destruct (NR p X j RP Hj) as [Wn Rn].
      split; [apply r_mont_ok; [apply K|assumption|assumption]|]. apply rep_mont; trivial. }
    assert (AN : forall j, (j <= LR)%nat -> inr (Qi (ppR b) j) (row aN j) /\ repM (Qi (ppR b) j) (row aN j) (Xv id0)) by (intros j Hj; apply MF; [apply W03; assumption|assumption]).
    assert (BM : forall j, (j <= LR)%nat -> inr (Qi (ppR b) j) (row bM j) /\ repM (Qi (ppR b) j) (row bM j) (Yv id0)) by (intros j Hj; apply MF; [apply W13; assumption|assumption]).
    (* the rows multiplied over R for every component *)
    set (pr := fun x => if string_dec x id0 then mM aN (prows (comp op1 id0)) else
        if in_dec string_dec x (parties op0) then
          if in_dec string_dec x (parties op1) then lvlQ3 (ppR b) LR r_mont_add bM (lvlQ1 (ppR b) LR ntt (prows (comp op0 x))) (mM aN (prows (comp op1 x)))
          else mM bM (prows (comp op0 x))
        else mM aN (prows (comp op1 x))).
    assert (PR : forall x, In x (keys out) -> forall j, (j < n + n)%nat -> wrd (row (pr x) j) /\ rep (Qi (ppR b) j) (row (pr x) j) (prodv op0 op1 Xv Yv x)).
    { intros x Hx j Hj. assert (Hj' : (j <= LR)%nat) by lia. pose proof (OK j Hj') as K. destruct (AN j Hj') as [AN1 AN2]. destruct (BM j Hj') as [BM1 BM2]. unfold pr, prodv.
      destruct (string_dec x id0) as [->|Nx].
      { destruct (PM aN _ _ _ j (W13 id0 W12) Hj' AN1 AN2) as [C1 C2]. split; [apply (canon_wrd (Qi (ppR b) j)); [apply K|exact C1]|exact C2]. }
      destruct (in_dec string_dec x (parties op0)) as [J0|J0]; destruct (in_dec string_dec x (parties op1)) as [J1|J1].
      - apply in_parties in J0. apply in_parties in J1. destruct (PM aN _ _ _ j (W13 x (proj2 J1)) Hj' AN1 AN2) as [C1 C2]. rewrite row_lvlQ3, row_lvlQ1 by assumption.
        destruct (NR _ _ j (W03 x (proj2 J0)) Hj') as [Wn Rn].
        destruct (rep_mont_add (Qi (ppR b) j) _ _ _ _ _ _ K BM1 Wn (canon_inr _ _ C1) BM2 Rn C2) as [Z1 Z2]. split; [apply (canon_wrd (Qi (ppR b) j)); [apply K|exact Z1]|].
        apply (rep_eqm _ _ _ _ Z2). apply eqm_eq. ring.
      - apply in_parties in J0. destruct (PM bM _ _ _ j (W03 x (proj2 J0)) Hj' BM1 BM2) as [C1 C2]. split; [apply (canon_wrd (Qi (ppR b) j)); [apply K|exact C1]|]. apply (rep_eqm _ _ _ _ C2). apply eqm_eq. ring.
      - apply in_parties in J1. destruct (PM aN _ _ _ j (W13 x (proj2 J1)) Hj' AN1 AN2) as [C1 C2]. split; [apply (canon_wrd (Qi (ppR b) j)); [apply K|exact C1]|]. apply (rep_eqm _ _ _ _ C2). apply eqm_eq. ring.
      - exfalso. apply KS in Hx. rewrite in_parties in J0, J1. tauto. }
    pose (PZ := fun x (w : list R * R * R) => let '(z, Z, Rm) := w in Quantize b (pr x) = Ok z /\ length z = n /\ (forall j, (j < n)%nat -> canon (Qi pp j) (row z j) /\ eqm (mq (Qi pp j)) (row z j) Z) /\
       add (smul (mprod b) Z) Rm = smul (bT b) (prodv op0 op1 Xv Yv x) /\ nearly Rm (mprod b)).
    destruct (list_choice (keys out) PZ (nil, R0, R0)) as [fz HZ].
    { intros x Hx. destruct (Quantize_ok b WB (pr x) (prodv op0 op1 Xv Yv x) (PR x Hx)) as (z & Z & Rm & A1 & A2 & A3 & A4 & A5). exists (z, Z, Rm). unfold PZ. repeat (split; [assumption|]). exact A5. }
    set (zf := fun x => fst (fst (fz x))). set (Zf := fun x => snd (fst (fz x))). set (Rf := fun x => snd (fz x)).
    assert (HZ' : forall x, In x (keys out) -> Quantize b (pr x) = Ok (zf x) /\ length (zf x) = n /\ (forall j, (j < n)%nat -> canon (Qi pp j) (row (zf x) j) /\ eqm (mq (Qi pp j)) (row (zf x) j) (Zf x)) /\
       add (smul (mprod b) (Zf x)) (Rf x) = smul (bT b) (prodv op0 op1 Xv Yv x) /\ nearly (Rf x) (mprod b)).
    { intros x Hx. specialize (HZ x Hx). unfold PZ in HZ. unfold zf, Zf, Rf. destruct (fz x) as [[z Z] Rm]. exact HZ. }
    clear HZ PZ. clearbody zf Zf Rf. clear fz.
    (* first component *)
    assert (Q0 : Quantize b (lvlQ2 (ppR b) LR r_mont aN bN) = Ok (zf id0)).
    { destruct (HZ' id0 WO2) as [Q _]. unfold pr in Q. destruct (string_dec id0 id0) as [_|C]; [exact Q|contradiction]. }
    rewrite Q0. cbn [rbind]. rewrite cwr_ok by assumption. cbn [rbind]. set (out1 := cset out id0 _).
    destruct (ids_list ids0 op0 (o 4%nat (keys ids0)) M0 S0 (O 4%nat _)) as [ND4 IL4]. destruct (ids_list ids1 op1 (o 5%nat (keys ids1)) M1 S1 (O 5%nat _)) as [ND5 IL5]. destruct (ids_list ids1 op1 (o 6%nat (keys ids1)) M1 S1 (O 6%nat _)) as [ND6 IL6].
    assert (H0 : forall x, is_has ids0 x = true <-> In x (parties op0)) by (intros x; rewrite S0, in_parties; reflexivity).
    assert (H1 : forall x, is_has ids1 x = true <-> In x (parties op1)) by (intros x; rewrite S1, in_parties; reflexivity).
    rewrite rfold_skip. set (q4 := filter (fun x => negb (is_has ids1 x)) (o 4%nat (keys ids0))).
    assert (I4 : forall x, In x q4 <-> In x (parties op0) /\ ~ In x (parties op1)).
    { intros x. unfold q4. rewrite filter_In, IL4. rewrite <- H1. destruct (is_has ids1 x); cbn [negb]; intuition congruence. }
    assert (K1 : forall x, In x (keys out1) <-> In x (keys out)) by (apply keys_upd; assumption).
    assert (PO : forall x, In x (parties op0) -> x <> id0 /\ In x (keys op0) /\ In x (keys out)) by (intros x Hx; apply in_parties in Hx; split; [tauto|]; split; [tauto|]; apply KS; tauto).
    assert (P1 : forall x, In x (parties op1) -> x <> id0 /\ In x (keys op1) /\ In x (keys out)) by (intros x Hx; apply in_parties in Hx; split; [tauto|]; split; [tauto|]; apply KS; tauto).
    set (G := fun id (p : poly N) => Pol (zf id) (pntt p)).
    match goal with |- context [rfold ?ff q4 out1] => destruct (loop1 ff G q4 out1) as (c1 & A1 & A2 & A3 & A4) end.
    { apply NoDup_filter. assumption. }
    { apply mwf_mset. assumption. }
    { intros x Hx. apply K1. apply I4 in Hx. apply PO. apply Hx. }
    { intros c id Hid Wc Kc Ec. apply I4 in Hid. destruct Hid as [J0 J1]. destruct (PO id J0) as (Nid & K0 & KO). rewrite (RG0 id K0). cbn [rbind].
      destruct (HZ' id KO) as [Q _]. unfold pr in Q. destruct (string_dec id id0); [contradiction|]. destruct (in_dec string_dec id (parties op0)); [|contradiction]. destruct (in_dec string_dec id (parties op1)); [contradiction|].
      unfold mM in Q. rewrite Q. cbn [rbind]. rewrite cwr_ok by (apply Kc, K1; assumption). rewrite Ec. reflexivity. }
    rewrite A1. cbn [rbind]. rewrite rfold_skip. set (q5 := filter (fun x => negb (is_has ids0 x)) (o 5%nat (keys ids1))).
    assert (I5 : forall x, In x q5 <-> In x (parties op1) /\ ~ In x (parties op0)).
    { intros x. unfold q5. rewrite filter_In, IL5. rewrite <- H0. destruct (is_has ids0 x); cbn [negb]; intuition congruence. }
    match goal with |- context [rfold ?ff q5 c1] => destruct (loop1 ff G q5 c1) as (c2 & B1 & B2 & B3 & B4) end.
    { apply NoDup_filter. assumption. }
    { assumption. }
    { intros x Hx. apply A3, K1. apply I5 in Hx. apply P1. apply Hx. }
    { intros c id Hid Wc Kc Ec. apply I5 in Hid. destruct Hid as [J1 J0]. destruct (P1 id J1) as (Nid & K0 & KO). rewrite (RG1 id K0). cbn [rbind].
      destruct (HZ' id KO) as [Q _]. unfold pr in Q. destruct (string_dec id id0); [contradiction|]. destruct (in_dec string_dec id (parties op0)); [contradiction|].
      unfold mM in Q. rewrite Q. cbn [rbind]. rewrite cwr_ok by (apply Kc, A3, K1; assumption). rewrite Ec. reflexivity. }
    rewrite B1. cbn [rbind]. rewrite rfold_only. set (q6 := filter (is_has ids0) (o 6%nat (keys ids1))).
    assert (I6 : forall x, In x q6 <-> In x (parties op0) /\ In x (parties op1)).
    { intros x. unfold q6. rewrite filter_In, IL6. rewrite <- H0. tauto. }
    match goal with |- context [rfold ?ff q6 c2] => destruct (loop1 ff G q6 c2) as (c3 & C1 & C2 & C3 & C4) end.
    { apply NoDup_filter. assumption. }
    { assumption. }
    { intros x Hx. apply B3, A3, K1. apply I6 in Hx. apply P1. apply Hx. }
    { intros c id Hid Wc Kc Ec. apply I6 in Hid. destruct Hid as [J0 J1]. destruct (P1 id J1) as (Nid & KI & KO). destruct (PO id J0) as (_ & KI0 & _). rewrite (RG1 id KI). cbn [rbind]. rewrite (RG0 id KI0). cbn [rbind].
      destruct (HZ' id KO) as [Q _]. unfold pr in Q. destruct (string_dec id id0); [contradiction|]. destruct (in_dec string_dec id (parties op0)); [|contradiction]. destruct (in_dec string_dec id (parties op1)); [|contradiction].
      unfold mM in Q. rewrite Q. cbn [rbind]. rewrite cwr_ok by (apply Kc, B3, A3, K1; assumption). rewrite Ec. reflexivity. }
    exists c3, Zf, Rf. split; [exact C1|].
    assert (K3 : forall x, In x (keys c3) <-> In x (keys out)) by (intros x; rewrite C3, B3, A3; apply K1).
    assert (CF : forall x, In x (keys out) -> comp c3 x = Pol (zf x) false).
    { intros x Hx. assert (FX : pntt (comp out x) = false) by apply (wfct_comp pp _ _ _ _ WO Hx).
      assert (F1 : pntt (comp out1 x) = false) by (unfold out1; rewrite comp_cset; destruct (string_dec x id0) as [->|]; cbn [pntt]; assumption).
      rewrite C4. destruct (in_dec string_dec x q6) as [J6|J6]; [unfold G at 1; f_equal|].
      - rewrite B4. destruct (in_dec string_dec x q5); [unfold G; cbn [pntt]|]; rewrite A4; destruct (in_dec string_dec x q4); try (unfold G; cbn [pntt]); assumption.
      - rewrite B4. destruct (in_dec string_dec x q5) as [J5|J5]; [unfold G at 1; f_equal; rewrite A4; destruct (in_dec string_dec x q4); [unfold G; cbn [pntt]|]; assumption|].
        rewrite A4. destruct (in_dec string_dec x q4) as [J4|J4]; [unfold G at 1; f_equal; assumption|].
        destruct (string_dec x id0) as [->|Nx]; [unfold out1; rewrite comp_eq; f_equal; assumption|].
        exfalso. rewrite I6 in J6. rewrite I5 in J5. rewrite I4 in J4. apply KS in Hx. rewrite !in_parties in *.
        destruct (in_dec string_dec x (keys op0)), (in_dec string_dec x (keys op1)); tauto. }
    split; [|split; [exact K3|]].
    - split; [assumption|]. split; [apply K3; assumption|]. intros x p Hp.
      assert (Hx : In x (keys out)) by (apply K3; apply (mget_In_keys seq_dec); rewrite Hp; discriminate).
      assert (p = comp c3 x) by (unfold comp; rewrite Hp; reflexivity). subst p. rewrite (CF x Hx). destruct (HZ' x Hx) as (_ & Z2 & Z3 & _).
      split; [cbn [prows]; lia|]. split; [reflexivity|]. intros j Hj. cbn [prows]. apply canon_inr. apply Z3. lia.
    - intros x Hx. destruct (HZ' x Hx) as (_ & _ & Z3 & Z4 & Z5). split; [apply nearly_bnd; assumption|]. split; [exact Z4|].
      intros j Hj. unfold MulProofs.cr. rewrite (CF x Hx). cbn [prows]. apply Z3. lia.
  Qed.

  Definition bparty_digits (h : option (bhoisted N)) (op : ct) (Xv : string -> R) DB : Prop :=
    forall id, In id (parties op) -> exists d1 d2 D, bhdig b L h op id = Ok (d1, d2) /\ bdigits b d1 d2 (Xv id) DB D.
  Lemma bExtOp_hdig h (op : ct) id d1 d2 k1 k2 : bhdig b L h op id = Ok (d1, d2) -> bExtOp b L h op id k1 k2 = ExternalProductBFVHoisted b L d1 d2 k1 k2.
  Proof. intros E. unfold bExtOp. rewrite E. reflexivity. Qed.

  Theorem MulBFVHoisted_ok (o : IdSetModel.order) crs (op0 op1 : ct) h0 h1 (rs : brlkset N) out (s r : string -> R) a1 a2 u B T DB0 DB1 Xv Yv :
    order_ok o -> rct op0 Xv -> rct op1 Yv -> wfct pp L false out -> (forall x, In x (keys out) <-> In x (keys op0) \/ In x (keys op1)) ->
    mget Z.eq_dec crs (-1) = Some u -> crs_ok pp u ->
    (forall id, In id (parties op0) \/ In id (parties op1) -> exists key, brlk_get rs id = Ok key /\ brelin_ok b a1 a2 u (s id) (r id) B T key) ->
    bparty_digits h0 op0 Xv DB0 -> bparty_digits h1 op1 Yv DB1 ->
    exists out' Mx E, MulAndRelinBFVHoisted b o crs op0 op1 h0 h1 rs out = Ok out' /\ wfct pp L false out' /\ (forall x, In x (keys out') <-> In x (keys out)) /\
      bnd E (bmul_noise N b (length (parties op0)) (length (parties op1)) (length (parties out)) DB0 DB1 B T) /\
      smul (mprod b) Mx = add (smul (bT b) (mul (iphase s op0 Xv) (iphase s op1 Yv))) E /\
      forall j, (j <= L)%nat -> eqm (mq (Qi pp j)) (phase pp s out' j) Mx.
  Proof.
    intros O W0 W1 WO KS GU CU HK HD0 HD1. pose proof (L_Qm b WB) as HL. pose proof (L_n b WB) as LN. pose proof npos as NP.
    set (p0 := parties op0) in *. set (p1 := parties op1) in *.
    (* choose keys, errors, digits *)
    pose (PK := fun id (y : bRelinKey N * (nat -> R) * (nat -> R) * (nat -> R)) => let '(key, eb, ed, ev) := y in brlk_get rs id = Ok key /\
      ((be <= length (br_b1 key))%nat /\ (be <= length (br_b2 key))%nat /\ (be <= length (br_d1 key))%nat /\ (be <= length (br_d2 key))%nat /\ (be <= length (br_v key))%nat) /\ bnd (s id) T /\ bnd (r id) T /\
      (forall k, (k < be + be)%nat -> bnd (eb k) B /\ bnd (ed k) B /\
        mval pp L (pick b (br_b1 key) (br_b2 key) k) (fun i => sub (eb k) (mul (s id) (crs2 b a1 a2 k i))) /\
        mval pp L (pick b (br_d1 key) (br_d2 key) k) (fun i => sub (add (ed k) (smul (gk b k) (s id))) (mul (r id) (crs2 b a1 a2 k i)))) /\
      forall k, (k < be)%nat -> bnd (ev k) B /\
        mval pp L (nth k (br_v key) dQP) (fun i => opp (add (add (ev k) (mul (gad pp k i) (r id))) (mul (s id) (swk_val pp u k i))))).
    assert (CK : exists f, forall id, In id (p0 ++ p1) -> PK id (f id)).
    { apply (list_choice _ PK (BRLK ""%string nil nil nil nil nil, fun _ => R0, fun _ => R0, fun _ => R0)). intros id Hid. apply in_app_or in Hid.
      destruct (HK id Hid) as (key & K1 & eb & ed & ev & K2). exists (key, eb, ed, ev). split; assumption. }
    destruct CK as [fk CK]. set (kf := fun id => fst (fst (fst (fk id)))). set (ebf := fun id => snd (fst (fst (fk id)))). set (edf := fun id => snd (fst (fk id))). set (evf := fun id => snd (fk id)).
    assert (CK' : forall id, In id p0 \/ In id p1 -> PK id (kf id, ebf id, edf id, evf id)).
    { intros id Hid. specialize (CK id (in_or_app _ _ _ Hid)). unfold kf, ebf, edf, evf. destruct (fk id) as [[[key eb] ed] ev]. exact CK. }
    unfold PK in CK'. cbv beta iota in CK'. clear CK PK HK. clearbody kf ebf edf evf. clear fk.
    pose (PD := fun h (op : ct) Xv DB id (y : swk N * swk N * (nat -> R)) => bhdig b L h op id = Ok (fst y) /\ bdigits b (fst (fst y)) (snd (fst y)) (Xv id) DB (snd y)).
    destruct (list_choice p0 (PD h0 op0 Xv DB0) (nil, nil, fun _ => R0)) as [fd0 CD0]; [intros id Hid; destruct (HD0 id Hid) as (d1 & d2 & D & X1 & X2); exists (d1, d2, D); split; assumption|].
    destruct (list_choice p1 (PD h1 op1 Yv DB1) (nil, nil, fun _ => R0)) as [fd1 CD1]; [intros id Hid; destruct (HD1 id Hid) as (d1 & d2 & D & X1 & X2); exists (d1, d2, D); split; assumption|].
    unfold PD in CD0, CD1. clear PD HD0 HD1. set (D0 := fun id => snd (fd0 id)) in *. set (D1 := fun id => snd (fd1 id)) in *. set (ds0 := fun id => fst (fd0 id)) in *. set (ds1 := fun id => fst (fd1 id)) in *.
    (* start *)
    unfold MulAndRelinBFVHoisted. rewrite (wfct_level pp _ _ _ WO). cbn [rbind].
    pose proof W0 as (W01 & W02 & W03). pose proof W1 as (W11 & W12 & W13).
    assert (EL0 : ctLevel op0 = Ok (n + n - 1)%nat) by (unfold ctLevel; rewrite (cget_comp op0 id0 W02); cbn [rbind]; unfold plevel; rewrite (proj1 (W03 id0 W02)); reflexivity).
    rewrite EL0. cbn [rbind]. destruct (Nat.ltb_spec (n + n - 1) L) as [C|_]; [lia|].
    destruct (IDSetOf_ok (o 0%nat) op0) as (ids0 & I1 & M0 & S0); [intros l; apply O|]. rewrite I1. cbn [rbind].
    destruct (IDSetOf_ok (o 1%nat) op1) as (ids1 & J1 & M1 & S1); [intros l; apply O|]. rewrite J1. cbn [rbind].
    destruct (ids_list ids0 op0 (o 2%nat (keys ids0)) M0 S0 (O 2%nat _)) as [ND2 IL2]. destruct (ids_list ids1 op1 (o 3%nat (keys ids1)) M1 S1 (O 3%nat _)) as [ND3 IL3].
    fold p0 in IL2. fold p1 in IL3.
    assert (NP0 : NoDup p0) by (apply parties_nodup; assumption). assert (NP1 : NoDup p1) by (apply parties_nodup; assumption).
    assert (PP2 : Permutation (o 2%nat (keys ids0)) p0) by (apply NoDup_Permutation; assumption).
    assert (PP3 : Permutation (o 3%nat (keys ids1)) p1) by (apply NoDup_Permutation; assumption).
    set (fx := fun id k i => sub (add (edf id k) (smul (gk b k) (s id))) (mul (r id) (crs2 b a1 a2 k i))). set (fy := fun id k i => sub (ebf id k) (mul (s id) (crs2 b a1 a2 k i))).
    destruct (bGenVec_ok b WB HD br_d1 br_d2 h0 op0 rs (o 2%nat (keys ids0)) Xv DB0 ds0 D0 kf fx) as (x1 & x2 & X1 & X2 & X2' & X3).
    { intros id Hid. apply IL2 in Hid. destruct (CD0 id Hid) as [Y1 Y2]. destruct (CK' id (or_introl Hid)) as (Y3 & (_ & _ & Y4 & Y4' & _) & _ & _ & Y5 & _).
      split; [exact Y1|]. split; [exact Y2|]. split; [exact Y3|]. split; [lia|]. split; [lia|]. intros k K. apply Y5. assumption. }
    destruct (bGenVec_ok b WB HD br_b1 br_b2 h1 op1 rs (o 3%nat (keys ids1)) Yv DB1 ds1 D1 kf fy) as (y1 & y2 & Y1 & Y2 & Y2' & Y3).
    { intros id Hid. apply IL3 in Hid. destruct (CD1 id Hid) as [Z1 Z2]. destruct (CK' id (or_intror Hid)) as (Z3 & (Z4 & Z4' & _) & _ & _ & Z5 & _).
      split; [exact Z1|]. split; [exact Z2|]. split; [exact Z3|]. split; [lia|]. split; [lia|]. intros k K. apply Z5. assumption. }
    rewrite X1. cbn [rbind]. rewrite Y1. cbn [rbind].
    assert (X3' : forall k, (k < be + be)%nat -> mval pp L (pick b x1 x2 k) (fun m => Lsum p0 (fun i => mul (fx i k m) (D0 i k)))).
    { intros k K. apply (mval_eqm pp L _ _ _ (X3 k K)). intros m V. apply eqm_eq. apply Lsum_perm. assumption. }
    assert (Y3' : forall k, (k < be + be)%nat -> mval pp L (pick b y1 y2 k) (fun m => Lsum p1 (fun j => mul (fy j k m) (D1 j k)))).
    { intros k K. apply (mval_eqm pp L _ _ _ (Y3 k K)). intros m V. apply eqm_eq. apply Lsum_perm. assumption. }
    clear X3 Y3.
    destruct (bProdStage_ok o op0 op1 Xv Yv ids0 ids1 out O W0 W1 WO KS M0 M1 S0 S1) as (c1 & Zf & Rf & C11 & C12 & C13 & C14).
    rewrite C11. cbn [rbind].
    (* the products X_j *)
    pose (PX := fun j (w : list R * R) => bExtOp b L h1 op1 j x1 x2 = Ok (fst w) /\ length (fst w) = S L /\ (forall i, (i <= L)%nat -> canon (Qi pp i) (row (fst w) i)) /\
       bnd (snd w) (slack (Pprod pp)) /\ forall m, vi pp L m ->
       eqm (qmod pp m) (smul (Pprod pp) (frow (fst w) m)) (sub (Lsum (seq 0 (be + be)) (fun k => mul (Lsum p0 (fun i => mul (fx i k m) (D0 i k))) (D1 j k))) (snd w))).
    destruct (list_choice p1 PX (nil, R0)) as [ff CX].
    { intros j Hj. destruct (CD1 j Hj) as [Z1 Z2]. destruct (ExtBFVHoisted_ok b WB HD x1 x2 (fst (ds1 j)) (snd (ds1 j)) _ (Yv j) DB1 (D1 j) Z2 ltac:(lia) ltac:(lia) X3') as (w & Rm & T1 & T2 & T3 & T4 & T5).
      exists (w, Rm). unfold PX. cbn [fst snd]. rewrite (bExtOp_hdig h1 op1 j (fst (ds1 j)) (snd (ds1 j))) by (rewrite <- surjective_pairing; exact Z1). repeat (split; [assumption|]). exact T5. }
    unfold PX in CX. clear PX. set (Xf := fun j => fst (ff j)) in *. set (R1 := fun j => snd (ff j)) in *.
    (* the products W_i and what they are switched to *)
    pose (PW := fun i (w : list R * R * (swk N * list R * list R * R)) => let '(wr, Rm, (dw, ov, ou, E)) := w in
       bExtOp b L h0 op0 i y1 y2 = Ok wr /\ length wr = S L /\ (forall i, (i <= L)%nat -> canon (Qi pp i) (row wr i)) /\
       bnd Rm (slack (Pprod pp)) /\ (forall m, vi pp L m ->
       eqm (qmod pp m) (smul (Pprod pp) (frow wr m)) (sub (Lsum (seq 0 (be + be)) (fun k => mul (Lsum p1 (fun j => mul (fy j k m) (D1 j k))) (D0 i k))) Rm)) /\
       Decompose pp L (Pol wr false) = Ok dw /\ ExternalProductHoisted pp L dw (br_v (kf i)) = Ok ov /\ ExternalProductHoisted pp L dw u = Ok ou /\
       length ov = S L /\ length ou = S L /\ (forall j, (j <= L)%nat -> canon (Qi pp j) (row ov j) /\ canon (Qi pp j) (row ou j)) /\
       bnd E (switch_noise N pp L (dig_bound pp L) B T) /\
       forall j, (j <= L)%nat -> eqm (mq (Qi pp j)) (add (row ov j) (mul (s i) (row ou j))) (add (mul (row wr j) (opp (r i))) E)).
    destruct (list_choice p0 PW (nil, R0, (nil, nil, nil, R0))) as [fw CW].
    { intros i Hi. destruct (CD0 i Hi) as [Z1 Z2]. destruct (ExtBFVHoisted_ok b WB HD y1 y2 (fst (ds0 i)) (snd (ds0 i)) _ (Xv i) DB0 (D0 i) Z2 ltac:(lia) ltac:(lia) Y3') as (w & Rm & T1 & T2 & T3 & T4 & T5).
      destruct (CK' i (or_introl Hi)) as (Q1 & (_ & _ & _ & _ & Q4) & Q5 & Q6 & _ & Q7).
      destruct (Decompose_digits pp WF L L (Pol w false) ltac:(lia) HL) as (dw & DW1 & DW2 & DW3).
      { unfold inv_form. cbn [pntt prows]. split; [lia|]. intros j Hj. apply canon_inr. apply T3. assumption. }
      unfold inv_form in DW3. cbn [pntt prows] in DW3.
      destruct (hoist_switch pp WF L dw (br_v (kf i)) u (row w) (dig_bound pp L) (fun k => digR pp L k w) (opp (r i)) (s i) (fun k => opp (evf i k)) (swk_val pp u) B T) as (ov & ou & E & V1 & V2 & V3 & V4 & V5 & V6 & V7); trivial.
      - destruct CU as [CU _]. exact CU.
      - intros k K. apply (mval_eqm pp L _ (fun m => opp (add (add (evf i k) (mul (gad pp k m) (r i))) (mul (s i) (swk_val pp u k m))))).
        + apply Q7. exact K.
        + intros m V. apply eqm_eq. ring.
      - intros k K. apply (swk_mval pp WF); assumption.
      - intros k K. apply bnd_opp. apply Q7. exact K.
      - exists (w, Rm, (dw, ov, ou, E)). unfold PW. rewrite (bExtOp_hdig h0 op0 i (fst (ds0 i)) (snd (ds0 i))) by (rewrite <- surjective_pairing; exact Z1). repeat (split; [assumption|]). exact V7. }
    set (Wf := fun i => fst (fst (fw i))). set (R2 := fun i => snd (fst (fw i))). set (dwf := fun i => fst (fst (fst (snd (fw i))))). set (ovf := fun i => snd (fst (fst (snd (fw i))))).
    set (ouf := fun i => snd (fst (snd (fw i)))). set (e2 := fun i => snd (snd (fw i))).
    assert (CW' : forall i, In i p0 -> PW i (Wf i, R2 i, (dwf i, ovf i, ouf i, e2 i))).
    { intros i Hi. specialize (CW i Hi). unfold Wf, R2, dwf, ovf, ouf, e2. destruct (fw i) as [[w Rm] [[[dw ov] ou] E]]. exact CW. }
    unfold PW in CW'. cbv beta iota in CW'. clear CW PW. clearbody Wf R2 dwf ovf ouf e2. clear fw.
    (* X stage *)
    unfold bxStage. destruct (ids_list ids1 op1 (o 7%nat (keys ids1)) M1 S1 (O 7%nat _)) as [ND7 IL7]. fold p1 in IL7. set (q7 := o 7%nat (keys ids1)) in *.
    pose proof C12 as (C12a & C12b & C12c).
    destruct (loop1 (fun c id => e <- bExtOp b L h1 op1 id x1 x2 ;; q <- cget c id ;; cwr c id (lvlQ2 pp L r_add (prows q) e))
       (fun id p => Pol (lvlQ2 pp L r_add (prows p) (Xf id)) (pntt p)) q7 c1) as (c2 & E1 & E2 & E3 & E4); trivial.
    { intros z Hz. apply C13, KS. right. apply IL7, in_parties in Hz. apply Hz. }
    { intros c id Hid Wc Kc Ec. apply IL7 in Hid. destruct (CX id Hid) as [Z1 _]. fold (Xf id) in Z1. rewrite Z1. cbn [rbind]. apply in_parties in Hid.
      assert (Ic : In id (keys c)) by (apply Kc, C13, KS; tauto). rewrite (cget_comp c id Ic). cbn [rbind]. rewrite cwr_ok by assumption. rewrite Ec. reflexivity. }
    rewrite E1. cbn [rbind].
    assert (K2 : forall z, In z (keys c2) <-> In z (keys out)) by (intros z; rewrite E3; apply C13).
    assert (P2 : forall z, In z (keys out) -> wfpoly pp L false (comp c2 z) /\ forall j, (j <= L)%nat -> eqm (mq (Qi pp j)) (cr c2 z j) (add (cr c1 z j) (if in_dec string_dec z p1 then row (Xf z) j else R0))).
    { intros z Hz. pose proof (wfct_comp pp _ _ _ z C12 ltac:(apply C13; assumption)) as (Z1 & Z2 & Z3). unfold MulProofs.cr. rewrite E4. destruct (in_dec string_dec z q7) as [J|J]; destruct (in_dec string_dec z p1) as [J'|J'].
      2,3: exfalso; rewrite IL7 in J; tauto.
      - cbn [prows]. rewrite Z2. destruct (CX z J') as (_ & _ & Z4 & _). fold (Xf z) in Z4.
        assert (RA : forall j, (j <= L)%nat -> inr (Qi pp j) (r_add (Qi pp j) (row (prows (comp c1 z)) j) (row (Xf z) j)) /\ eqm (mq (Qi pp j)) (r_add (Qi pp j) (row (prows (comp c1 z)) j) (row (Xf z) j)) (add (row (prows (comp c1 z)) j) (row (Xf z) j))).
        { intros j Hj. apply r_add_ok; [apply (okQ pp WF); cbn [ppQ Qm]; lia|apply Z3; assumption|apply canon_inr, Z4; assumption]. }
        split; [apply wfpoly_tab; intros j Hj; apply RA; assumption|]. intros j Hj. rewrite row_lvlQ2 by assumption. apply RA. assumption.
      - split; [split; [assumption|split; assumption]|]. intros j Hj. apply eqm_eq. ring. }
    (* V stage *)
    unfold bvStageH, crs_get. rewrite GU. cbn [rbind]. destruct (ids_list ids0 op0 (o 8%nat (keys ids0)) M0 S0 (O 8%nat _)) as [ND8 IL8]. fold p0 in IL8. set (q8 := o 8%nat (keys ids0)) in *.
    assert (IO0 : In id0 (keys out)) by apply WO.
    match goal with |- exists out' Mx E, rfold ?ff q8 c2 = _ /\ _ =>
      destruct (loop2 ff (fun id p => Pol (lvlQ2 pp L r_add (prows p) (ovf id)) (pntt p)) (fun id p => Pol (lvlQ2 pp L r_add (prows p) (ouf id)) (pntt p)) q8 c2) as (c3 & F1 & F2 & F3 & F4 & F5); trivial end.
    { intros z Hz. apply K2, KS. left. apply IL8, in_parties in Hz. apply Hz. }
    { apply K2. assumption. }
    { intros J. apply IL8, in_parties in J. tauto. }
    { intros c id Hid Wc Kc Ec. apply IL8 in Hid. destruct (CK' id (or_introl Hid)) as (Z0 & _). destruct (CW' id Hid) as (Z1 & _ & _ & _ & _ & Z2 & Z3 & Z4 & _). apply in_parties in Hid. destruct Hid as [Nid Hid].
      assert (Ic : In id (keys c)) by (apply Kc, K2, KS; tauto). assert (I0 : In id0 (keys c)) by (apply Kc, K2; assumption).
      rewrite Z0. cbn [rbind]. rewrite Z1. cbn [rbind]. rewrite Z2. cbn [rbind]. rewrite Z3. cbn [rbind]. rewrite (cget_comp c id0 I0). cbn [rbind]. rewrite cwr_ok by assumption. cbn [rbind].
      rewrite Z4. cbn [rbind]. rewrite cget_neq by assumption. rewrite (cget_comp c id Ic). cbn [rbind].
      rewrite cwr_ok by (apply keys_cset; tauto). rewrite comp_neq by assumption. rewrite Ec. reflexivity. }
    destruct (bcross b WB HD p0 p1 s r Xv Yv D0 D1 DB0 DB1 ebf edf (crs2 b a1 a2) Xf Wf R1 R2 B T) as (E & F & FB & EF & EE).
    { intros i Hi k K. destruct (CD0 i Hi) as [_ (_ & _ & Z)]. destruct (Z k K) as (Z1 & _ & Z3). split; assumption. }
    { intros i Hi k K. destruct (CD1 i Hi) as [_ (_ & _ & Z)]. destruct (Z k K) as (Z1 & _ & Z3). split; assumption. }
    { intros id Hid. destruct (CK' id Hid) as (_ & _ & Z1 & Z2 & Z3 & _). split; [assumption|]. split; [assumption|]. intros k K. split; apply Z3; assumption. }
    { intros j Hj. destruct (CX j Hj) as (_ & _ & _ & Z1 & Z2). split; assumption. }
    { intros i Hi. destruct (CW' i Hi) as (_ & _ & _ & Z1 & Z2 & _). split; assumption. }
    set (pu := parties out).
    assert (NPU : NoDup pu) by (apply parties_nodup; apply WO).
    assert (IP0 : incl p0 pu) by (intros z Hz; apply in_parties in Hz; apply in_parties; split; [tauto|apply KS; tauto]).
    assert (IP1 : incl p1 pu) by (intros z Hz; apply in_parties in Hz; apply in_parties; split; [tauto|apply KS; tauto]).
    assert (K3 : forall z, In z (keys c3) <-> In z (keys out)) by (intros z; rewrite F3; apply K2).
    exists c3, (add (add (Zf id0) (Lsum pu (fun z => mul (Zf z) (s z)))) (add E (Lsum p0 e2))),
      (add (sub F (add (Rf id0) (Lsum pu (fun z => mul (Rf z) (s z))))) (smul (mprod b) (Lsum p0 e2))). split; [exact F1|].
    destruct (fold_add_rows pp WF L false ovf q8 (comp c2 id0) HL (proj1 (P2 id0 IO0))) as [FA1 FA2].
    { intros i Hi j Hj. apply IL8 in Hi. destruct (CW' i Hi) as (_ & _ & _ & _ & _ & _ & _ & _ & _ & _ & Z & _). apply canon_inr. apply Z. assumption. }
    cbv zeta in FA1, FA2. rewrite <- F4 in FA1, FA2.
    assert (PP8 : Permutation q8 p0) by (apply NoDup_Permutation; assumption).
    assert (P3 : forall z, z <> id0 -> In z (keys out) -> wfpoly pp L false (comp c3 z) /\ forall j, (j <= L)%nat -> eqm (mq (Qi pp j)) (cr c3 z j) (add (cr c2 z j) (if in_dec string_dec z p0 then row (ouf z) j else R0))).
    { intros z Nz Hz. destruct (P2 z Hz) as [(Z1 & Z2 & Z3) _]. unfold MulProofs.cr. rewrite F5 by assumption. destruct (in_dec string_dec z q8) as [J|J]; destruct (in_dec string_dec z p0) as [J'|J'].
      2,3: exfalso; rewrite IL8 in J; tauto.
      - cbn [prows]. rewrite Z2. destruct (CW' z J') as (_ & _ & _ & _ & _ & _ & _ & _ & _ & _ & Z4 & _).
        assert (RA : forall j, (j <= L)%nat -> inr (Qi pp j) (r_add (Qi pp j) (row (prows (comp c2 z)) j) (row (ouf z) j)) /\ eqm (mq (Qi pp j)) (r_add (Qi pp j) (row (prows (comp c2 z)) j) (row (ouf z) j)) (add (row (prows (comp c2 z)) j) (row (ouf z) j))).
        { intros j Hj. apply r_add_ok; [apply (okQ pp WF); cbn [ppQ Qm]; lia|apply Z3; assumption|apply canon_inr, Z4; assumption]. }
        split; [apply wfpoly_tab; intros j Hj; apply RA; assumption|]. intros j Hj. rewrite row_lvlQ2 by assumption. apply RA. assumption.
      - split; [split; [assumption|split; assumption]|]. intros j Hj. apply eqm_eq. ring. }
    assert (W3 : wfct pp L false c3).
    { split; [assumption|]. split; [apply K3; assumption|]. intros z p Hp. assert (Hz : In z (keys out)) by (apply K3; apply (mget_In_keys seq_dec); rewrite Hp; discriminate).
      assert (p = comp c3 z) by (unfold comp; rewrite Hp; reflexivity). subst p. destruct (string_dec z id0) as [->|nz]; [exact FA1|apply P3; assumption]. }
    split; [exact W3|]. split; [exact K3|].
    assert (PU : forall z, In z pu -> z <> id0 /\ In z (keys out)) by (intros z Hz; apply in_parties in Hz; exact Hz).
    assert (ST : forall z, In z pu -> bnd (s z) T).
    { intros z Hz. destruct (PU z Hz) as [Nz KO]. assert (J : In z p0 \/ In z p1) by (apply KS in KO; unfold p0, p1; rewrite !in_parties; tauto). apply (CK' z J). }
    split; [|split].
    - unfold bmul_noise. apply bnd_add; [apply bnd_sub; [exact FB|]|].
      + apply bnd_add; [apply C14; assumption|]. apply Lsum_bnd. intros z Hz. apply bnd_mul; [apply C14; apply PU; assumption|apply ST; assumption].
      + assert (BE : bnd (Lsum p0 e2) (Z.of_nat (length p0) * switch_noise N pp L (dig_bound pp L) B T)).
        { apply Lsum_bnd. intros i Hi. destruct (CW' i Hi) as (_ & _ & _ & _ & _ & _ & _ & _ & _ & _ & _ & Z & _). exact Z. }
        intros i Hi. rewrite co_smul, Z.abs_mul. pose proof (mprod_pos b WB). rewrite (Z.abs_eq (mprod b)) by lia. apply Z.mul_le_mono_nonneg_l; [lia|]. apply BE. assumption.
    - (* the integer identity *)
      assert (Z0 : smul (mprod b) (Zf id0) = sub (smul (bT b) (mul (Xv id0) (Yv id0))) (Rf id0)).
      { destruct (C14 id0 IO0) as (_ & Z & _). unfold prodv in Z. destruct (string_dec id0 id0) as [_|C]; [|contradiction]. rewrite <- Z. ring. }
      assert (ZS : smul (mprod b) (Lsum pu (fun z => mul (Zf z) (s z))) = sub (smul (bT b) (add (mul (Lsum p0 (fun z => mul (Xv z) (s z))) (Yv id0)) (mul (Xv id0) (Lsum p1 (fun z => mul (Yv z) (s z)))))) (Lsum pu (fun z => mul (Rf z) (s z)))).
      { transitivity (Lsum pu (fun z => sub (smul (bT b) (add (if in_dec string_dec z p0 then mul (mul (Xv z) (s z)) (Yv id0) else R0) (if in_dec string_dec z p1 then mul (Xv id0) (mul (Yv z) (s z)) else R0))) (mul (Rf z) (s z)))).
        { rewrite <- Lsum_smul. apply Lsum_ext. intros z Hz. destruct (PU z Hz) as [Nz KO]. destruct (C14 z KO) as (_ & Z & _). unfold prodv in Z. destruct (string_dec z id0) as [C|_]; [contradiction|]. fold p0 p1 in Z.
          transitivity (sub (mul (add (smul (mprod b) (Zf z)) (Rf z)) (s z)) (mul (Rf z) (s z))); [rewrite !smul_cst; ring|]. rewrite Z. f_equal. rewrite !smul_cst. destruct (in_dec string_dec z p0), (in_dec string_dec z p1); ring. }
        rewrite Lsum_sub, Lsum_smul, Lsum_add, !Lsum_sub_ind by assumption. rewrite Lsum_mul_r, Lsum_mul_l. reflexivity. }
      assert (PRD : Lsum p0 (fun x => Lsum p1 (fun y => mul (mul (Xv x) (Yv y)) (mul (s x) (s y)))) = mul (Lsum p0 (fun z => mul (Xv z) (s z))) (Lsum p1 (fun z => mul (Yv z) (s z)))).
      { rewrite <- Lsum_mul_r. apply Lsum_ext. intros z Hz. rewrite <- Lsum_mul_l. apply Lsum_ext. intros w Hw. ring. }
      rewrite PRD in EF. unfold iphase. fold p0 p1. rewrite !smul_cst in *.
      transitivity (add (add (mul (cst (mprod b)) (Zf id0)) (mul (cst (mprod b)) (Lsum pu (fun z => mul (Zf z) (s z))))) (add (mul (cst (mprod b)) E) (mul (cst (mprod b)) (Lsum p0 e2)))); [ring|].
      rewrite Z0, ZS, EF. ring.
    - intros j Hj. unfold phase.
      rewrite (pval_row pp c3 L id0 j W3) by (apply K3; assumption).
      assert (PUP : Permutation (parties c3) pu).
      { apply NoDup_Permutation; [apply parties_nodup; assumption|assumption|]. intros z. unfold pu. rewrite !in_parties, K3. reflexivity. }
      rewrite (Lsum_perm _ _ _ PUP).
      transitivity (add (add (Zf id0) (Lsum p0 (fun i => row (ovf i) j)))
       (Lsum pu (fun z => add (mul (Zf z) (s z)) (add (if in_dec string_dec z p1 then mul (s z) (row (Xf z) j) else R0) (if in_dec string_dec z p0 then mul (s z) (row (ouf z) j) else R0))))).
      { apply eqm_add.
        - unfold MulProofs.cr at 1. rewrite FA2 by assumption. rewrite (Lsum_perm _ _ (fun i => row (ovf i) j) PP8). apply eqm_add; [|reflexivity].
          destruct (P2 id0 IO0) as [_ Z]. fold (cr c2 id0 j). rewrite (Z j Hj). destruct (in_dec string_dec id0 p1) as [J|J]; [apply in_parties in J; tauto|]. destruct (C14 id0 IO0) as (_ & _ & Z'). rewrite (Z' j Hj). apply eqm_eq. ring.
        - apply Lsum_eqm. intros z Hz. destruct (PU z Hz) as [Nz KO]. rewrite (pval_row pp c3 L z j W3) by (apply K3; assumption).
          destruct (P3 z Nz KO) as [_ Z3]. destruct (P2 z KO) as [_ Z2]. destruct (C14 z KO) as (_ & _ & Z1). rewrite (Z3 j Hj), (Z2 j Hj), (Z1 j Hj).
          apply eqm_eq. destruct (in_dec string_dec z p0), (in_dec string_dec z p1); ring. }
      rewrite !Lsum_add. rewrite !Lsum_sub_ind by assumption. specialize (EE j Hj).
      transitivity (add (add (Zf id0) (Lsum pu (fun z => mul (Zf z) (s z)))) (add (Lsum p0 (fun i => add (row (ovf i) j) (mul (s i) (row (ouf i) j)))) (Lsum p1 (fun z => mul (s z) (row (Xf z) j))))).
      { apply eqm_eq. rewrite Lsum_add. ring. }
      apply eqm_add; [reflexivity|].
      rewrite (Lsum_eqm (mq (Qi pp j)) p0 (fun i => add (row (ovf i) j) (mul (s i) (row (ouf i) j))) (fun i => sub (e2 i) (mul (r i) (row (Wf i) j)))).
      2:{ intros i Hi. destruct (CW' i Hi) as (_ & _ & _ & _ & _ & _ & _ & _ & _ & _ & _ & _ & Z). rewrite (Z j Hj). apply eqm_eq. ring. }
      rewrite Lsum_sub, <- EE. apply eqm_eq. ring.
  Qed.
End Mul.
