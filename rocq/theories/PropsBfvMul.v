(** C40: mkbfv MulRelinNew, from key generation to the noise of the product.
    [encodes b s c m V]: the decryption of c under the keys s is an integer polynomial X with t X = Q (m + t w) + v for some w and some v of size at most V
    (BFV's invariant noise: m is determined modulo t once 2 V < Q). *)
From Verif Require Import Base IdSetModel KeySetModel NumTheory Negacyclic Ntt Word BasisExt BasisExtProofs DecompProofs BasisSpec Rows RlweModel SchemeSpec ExtProd ExtProps KeyGenModel Galois KeyGenProofs CtModel CtSpec CtProofs EncDecProofs KeySwitchModel Digits KsLoops RotProofs ConjProofs MulProofs Instance PropsEnc PropsRotate PropsKeySwitch BfvModel PropsBfv BfvMulModel BfvConv BfvGadget BfvDig BfvKey BfvCross BfvMulProofs PropsBfvConv.
From Coq Require Import Znumtheory Setoid Morphisms.
Open Scope Z_scope.

Definition encodes {N} (b : bparams) (s : string -> R N) (c : ctT N) (m : R N) (V : Z) : Prop :=
  exists X v w, (forall j, (j < length (bQ b))%nat -> eqm (mq (Qi (ppQ b) j)) (phase (ppQ b) s c j) X) /\
    smul (bT b) X = add (smul (qprod b) (add m (smul (bT b) w))) v /\ bnd v V.

(** size of a decryption when every component lies in a window of length D: n parties, keys of size T *)
Definition phase_size (N : nat) (D : Z) (n : nat) (T : Z) : Z := D + Z.of_nat n * (Z.of_nat N * D * T).
(** size of the coefficients of the second operand before Rescale *)
Definition lift1 (b : bparams) : Z := (qprod b * slack (mprod b) + slack (qprod b)) / mprod b.
(** size of Q * (result) - t * phi0 * phi1 *)
Definition bfv_mul_noise (N : nat) (b : bparams) (n0 n1 : nat) (B T : Z) : Z :=
  (qprod b * bmul_noise N b n0 n1 (n0 + n1) (rdig_bound b) (rdig_bound b) B T
   + bT b * (Z.of_nat N * phase_size N (slack (qprod b)) n0 T * phase_size N (slack (qprod b)) n1 T)) / mprod b.
(** size of the invariant noise of the product *)
Definition bfv_prod_noise (N : nat) (b : bparams) (n0 n1 : nat) (B T V0 V1 : Z) : Z :=
  (bT b * (Z.of_nat N * phase_size N (slack (qprod b)) n0 T * V1) + bT b * (Z.of_nat N * phase_size N (lift1 b) n1 T * V0)
   + Z.of_nat N * V0 * V1 + bT b * bfv_mul_noise N b n0 n1 B T) / qprod b.

Lemma fold_mset_get {V} (f : string -> V) l : forall m x, mget seq_dec (fold_left (fun m id => mset seq_dec m id (f id)) l m) x = if in_dec string_dec x l then Some (f x) else mget seq_dec m x.
Proof.
  induction l as [|y l IH]; intros m x; [reflexivity|]. cbn [fold_left]. rewrite IH. destruct (in_dec string_dec x l) as [I|I]; destruct (in_dec string_dec x (y :: l)) as [J|J]; try reflexivity.
  - exfalso. apply J. right. exact I.
  - destruct J as [->|J]; [|contradiction]. rewrite mget_mset. destruct (seq_dec x x); congruence.
  - rewrite mget_mset. destruct (seq_dec x y) as [->|]; [exfalso; apply J; left; reflexivity|reflexivity].
Qed.

Section Lift.
  Context {N : nat} (b : bparams) (WB : wfb N b).
  Notation R := (R N). Notation ct := (ctT N).
  Notation n := (length (bQ b)). Notation pp := (ppQ b). Notation L := (maxLevel (ppQ b)).
  Add Ring R_ring35 : (@R_ring_theory N).

  Lemma liftCt_ok conv (c : ct) l (f : string -> list R) : (forall id, In id l -> In id (keys c) /\ conv (prows (comp c id)) = Ok (f id)) ->
    exists cR, liftCt conv l c = Ok cR /\ mwf cR /\ (forall x, In x (keys cR) <-> In x l) /\ forall x, In x l -> comp cR x = Pol (f x) false.
  Proof.
    intros H. unfold liftCt. rewrite (rfold_fold _ (fun (c : ct) id => cset c id (Pol (f id) false))).
    2:{ intros acc id Hid. destruct (H id Hid) as [K E]. rewrite (cget_comp c id K). cbn [rbind]. rewrite E. reflexivity. }
    eexists. split; [reflexivity|]. set (cR := fold_left (fun (c : ct) id => cset c id (Pol (f id) false)) l nil).
    assert (G : forall x, mget seq_dec cR x = if in_dec string_dec x l then Some (Pol (f x) false) else None) by (intros x; apply (fold_cset_get (fun id => Pol (f id) false))).
    split; [|split].
    - unfold cR. assert (A : forall l (c : ct), mwf c -> mwf (fold_left (fun c id => cset c id (Pol (f id) false)) l c)).
      { induction l0 as [|y l0 IH]; intros c0 W; [exact W|]. cbn [fold_left]. apply IH. apply mwf_mset. exact W. }
      apply A. constructor.
    - intros x. rewrite <- (mget_In_keys seq_dec), G. destruct (in_dec string_dec x l); split; intros; try congruence; contradiction.
    - intros x Hx. unfold comp. rewrite G. destruct (in_dec string_dec x l); [reflexivity|contradiction].
  Qed.
  Lemma hoistCt_ok level l (c : ct) (f : string -> swk N * swk N) : (forall id, In id l -> In id (keys c) /\ DecomposeBFV b level (prows (comp c id)) = Ok (f id)) ->
    exists h, hoistCt b level l c = Ok h /\ forall x, In x l -> bhget h x = Ok (f x).
  Proof.
    intros H. unfold hoistCt. rewrite (rfold_fold _ (fun m id => mset seq_dec m id (f id))).
    2:{ intros acc id Hid. destruct (H id Hid) as [K E]. rewrite (cget_comp c id K). cbn [rbind]. rewrite E. reflexivity. }
    eexists. split; [reflexivity|]. intros x Hx. unfold bhget. rewrite (fold_mset_get f). destruct (in_dec string_dec x l); [reflexivity|contradiction].
  Qed.

  Lemma parties_same (c c' : ct) : mwf c -> mwf c' -> (forall x, In x (keys c') <-> In x (keys c)) -> Permutation (parties c') (parties c).
  Proof.
    intros W W' H. apply NoDup_Permutation; [apply parties_nodup; assumption|apply parties_nodup; assumption|]. intros x. rewrite !in_parties, H. tauto.
  Qed.
  Lemma iphase_perm s (c c' : ct) (Xv : string -> R) : Permutation (parties c') (parties c) -> iphase s c' Xv = iphase s c Xv.
  Proof. intros P. unfold iphase. f_equal. apply Lsum_perm. exact P. Qed.
  Lemma iphase_bnd s (c : ct) (Xv : string -> R) D T : bnd (Xv id0) D -> (forall id, In id (parties c) -> bnd (Xv id) D /\ bnd (s id) T) -> bnd (iphase s c Xv) (phase_size N D (length (parties c)) T).
  Proof.
    intros H0 H. unfold iphase, phase_size. apply bnd_add; [exact H0|]. apply Lsum_bnd. intros id Hid. destruct (H id Hid). apply bnd_mul; assumption.
  Qed.
  Lemma iphase_lin s (c : ct) (X Y Rv : string -> R) u v : add (smul u (Y id0)) (Rv id0) = smul v (X id0) -> (forall id, In id (parties c) -> add (smul u (Y id)) (Rv id) = smul v (X id)) ->
    add (smul u (iphase s c Y)) (iphase s c Rv) = smul v (iphase s c X).
  Proof.
    intros H0 H. unfold iphase. assert (A : add (smul u (Lsum (parties c) (fun id => mul (Y id) (s id)))) (Lsum (parties c) (fun id => mul (Rv id) (s id))) = smul v (Lsum (parties c) (fun id => mul (X id) (s id)))).
    { rewrite <- !Lsum_smul, <- Lsum_add. apply Lsum_ext. intros id Hid. specialize (H id Hid). rewrite !smul_cst in *. transitivity (mul (mul (cst v) (X id)) (s id)); [rewrite <- H|]; ring. }
    apply R_ext. intros i Hi. apply (f_equal (fun r => co r i)) in A. apply (f_equal (fun r => co r i)) in H0. rewrite ?co_add, ?co_smul, ?co_add in *. lia.
  Qed.
  Lemma iphase_eqm s (c : ct) (X : string -> R) j : wfct pp L false c -> (j <= L)%nat -> (forall id, In id (keys c) -> eqm (mq (Qi pp j)) (row (prows (comp c id)) j) (X id)) ->
    eqm (mq (Qi pp j)) (phase pp s c j) (iphase s c X).
  Proof.
    intros W Hj H. unfold phase, iphase. pose proof W as (_ & I0 & _). apply eqm_add.
    - unfold pvalue. rewrite (proj1 (proj2 (wfct_comp pp _ _ _ _ W I0))). apply H. exact I0.
    - apply Lsum_eqm. intros id Hid. apply in_parties in Hid as [_ Hid]. unfold pvalue. rewrite (proj1 (proj2 (wfct_comp pp _ _ _ _ W Hid))). apply eqm_mul; [apply H; exact Hid|reflexivity].
  Qed.
End Lift.

Section C40.
  Context {N : nat} (b : bparams) (WB : wfb N b).
  Notation R := (R N). Notation ct := (ctT N).
  Notation n := (length (bQ b)). Notation pp := (ppQ b). Notation L := (maxLevel (ppQ b)).
  Hypothesis HD : (n mod alpha (ppQ b) = 0)%nat.
  Let WF : wfp N pp := wf_ppQ b WB.
  Add Ring R_ring36 : (@R_ring_theory N).

  (** the lifted operands *)
  Lemma lift_ops (o : IdSetModel.order) (c0 c1 : ct) : order_ok o -> wfct pp L false c0 -> wfct pp L false c1 ->
    exists c0R c1R (Xv Yv X1 Rv : string -> R), liftCt (ModUpQtoR b) (o 40%nat (keys c0)) c0 = Ok c0R /\ liftCt (Rescale b) (o 41%nat (keys c1)) c1 = Ok c1R /\
      rct b c0R Xv /\ rct b c1R Yv /\ (forall x, In x (keys c0R) <-> In x (keys c0)) /\ (forall x, In x (keys c1R) <-> In x (keys c1)) /\
      (forall id, In id (keys c0) -> bnd (Xv id) (slack (qprod b)) /\ forall j, (j < n)%nat -> eqm (mq (Qi pp j)) (row (prows (comp c0 id)) j) (Xv id)) /\
      (forall id, In id (keys c1) -> bnd (Rv id) (slack (qprod b)) /\ (forall j, (j < n)%nat -> eqm (mq (Qi pp j)) (row (prows (comp c1 id)) j) (X1 id)) /\
         add (smul (qprod b) (Yv id)) (Rv id) = smul (mprod b) (X1 id) /\ bnd (X1 id) (lift1 b)).
  Proof.
    intros O W0 W1. pose proof (L_n b WB) as LN. pose proof (mprod_pos b WB) as MP. pose proof (qprod_pos b WB) as QP.
    assert (IN0 : forall c : ct, wfct pp L false c -> forall id, In id (keys c) -> (n <= length (prows (comp c id)))%nat /\ forall j, (j < n)%nat -> inr (Qi pp j) (row (prows (comp c id)) j)).
    { intros c W id Hid. destruct (wfct_comp pp _ _ _ _ W Hid) as (A & _ & C). split; [rewrite A, LN; reflexivity|]. intros j Hj. apply C. rewrite <- LN in Hj. lia. }
    destruct (list_choice (keys c0) (fun id (y : list R * R) => ModUpQtoR b (prows (comp c0 id)) = Ok (fst y) /\ rowsR b (fst y) (snd y) /\ nearly (snd y) (qprod b) /\ forall j, (j < n)%nat -> row (fst y) j = row (prows (comp c0 id)) j) (nil, R0)) as [f0 H0].
    { intros id Hid. destruct (IN0 c0 W0 id Hid) as [I1 I2]. destruct (ModUpQtoR_ok b WB _ I1 I2) as (out & X & A). exists (out, X). exact A. }
    destruct (list_choice (keys c1) (fun id (y : list R * R * R * R) => let '(out, X, Y, Rm) := y in Rescale b (prows (comp c1 id)) = Ok out /\ rowsR b out Y /\ (forall j, (j < n)%nat -> eqm (mq (Qi pp j)) (row (prows (comp c1 id)) j) X) /\
      add (smul (qprod b) Y) Rm = smul (mprod b) X /\ nearly Rm (qprod b) /\ nearly Y (mprod b)) (nil, R0, R0, R0)) as [f1 H1].
    { intros id Hid. destruct (IN0 c1 W1 id Hid) as [I1 I2]. destruct (Rescale_ok b WB _ I1 I2) as (out & X & Y & Rm & A). exists (out, X, Y, Rm). exact A. }
    set (r1 := fun id => fst (fst (fst (f1 id)))). set (X1 := fun id => snd (fst (fst (f1 id)))). set (Yv := fun id => snd (fst (f1 id))). set (Rv := fun id => snd (f1 id)).
    assert (H1' : forall id, In id (keys c1) -> Rescale b (prows (comp c1 id)) = Ok (r1 id) /\ rowsR b (r1 id) (Yv id) /\ (forall j, (j < n)%nat -> eqm (mq (Qi pp j)) (row (prows (comp c1 id)) j) (X1 id)) /\
      add (smul (qprod b) (Yv id)) (Rv id) = smul (mprod b) (X1 id) /\ nearly (Rv id) (qprod b) /\ nearly (Yv id) (mprod b)).
    { intros id Hid. specialize (H1 id Hid). unfold r1, X1, Yv, Rv. destruct (f1 id) as [[[out X] Y] Rm]. exact H1. }
    clear H1. clearbody r1 X1 Yv Rv. clear f1.
    assert (P0 : forall x, In x (o 40%nat (keys c0)) <-> In x (keys c0)) by (intros x; split; apply Permutation_in; [|symmetry]; apply O).
    assert (P1 : forall x, In x (o 41%nat (keys c1)) <-> In x (keys c1)) by (intros x; split; apply Permutation_in; [|symmetry]; apply O).
    destruct (liftCt_ok (ModUpQtoR b) c0 (o 40%nat (keys c0)) (fun id => fst (f0 id))) as (c0R & A1 & A2 & A3 & A4).
    { intros id Hid. apply P0 in Hid. split; [exact Hid|]. apply H0. exact Hid. }
    destruct (liftCt_ok (Rescale b) c1 (o 41%nat (keys c1)) r1) as (c1R & B1 & B2 & B3 & B4).
    { intros id Hid. apply P1 in Hid. split; [exact Hid|]. apply H1'. exact Hid. }
    assert (K0 : forall x, In x (keys c0R) <-> In x (keys c0)) by (intros x; rewrite A3; apply P0).
    assert (K1 : forall x, In x (keys c1R) <-> In x (keys c1)) by (intros x; rewrite B3; apply P1).
    pose proof W0 as (_ & I0 & _). pose proof W1 as (_ & I1 & _).
    exists c0R, c1R, (fun id => snd (f0 id)), Yv, X1, Rv. split; [exact A1|]. split; [exact B1|].
    split; [split; [exact A2|]; split; [apply K0; exact I0|]; intros id Hid; rewrite A4 by (apply A3; exact Hid); cbn [prows]; apply H0; apply K0; exact Hid|].
    split; [split; [exact B2|]; split; [apply K1; exact I1|]; intros id Hid; rewrite B4 by (apply B3; exact Hid); cbn [prows]; apply H1'; apply K1; exact Hid|].
    split; [exact K0|]. split; [exact K1|]. split.
    - intros id Hid. destruct (H0 id Hid) as (_ & RR & NE & EQ). split; [apply nearly_bnd; exact NE|]. intros j Hj. rewrite <- EQ by exact Hj. rewrite <- (Qi_R b) by exact Hj. apply RR. lia.
    - intros id Hid. destruct (H1' id Hid) as (_ & RR & EQ & ID & N1 & N2). split; [apply nearly_bnd; exact N1|]. split; [exact EQ|]. split; [exact ID|].
      unfold lift1. apply bnd_div; [exact MP|]. rewrite <- ID. apply bnd_add; [|apply nearly_bnd; exact N1].
      replace (qprod b) with (Z.abs (qprod b)) at 2 by (apply Z.abs_eq; lia). apply bnd_smul. apply nearly_bnd. exact N2.
  Qed.

  (** what the operands over R and their digits look like, whatever [h0], [h1] hold *)
  Lemma mul_core (o : IdSetModel.order) crs (c0 c1 c0R c1R : ct) h0 h1 (rs : brlkset N) out (s r : string -> R) a1 a2 u B T Xv Yv X1 Rv :
    order_ok o -> wfct pp L false c0 -> wfct pp L false c1 -> wfct pp L false out -> (forall x, In x (keys out) <-> In x (keys c0) \/ In x (keys c1)) ->
    mget Z.eq_dec crs (-1) = Some u -> crs_ok pp u ->
    (forall id, In id (parties c0) \/ In id (parties c1) -> exists key, brlk_get rs id = Ok key /\ brelin_ok b a1 a2 u (s id) (r id) B T key) ->
    rct b c0R Xv -> rct b c1R Yv -> (forall x, In x (keys c0R) <-> In x (keys c0)) -> (forall x, In x (keys c1R) <-> In x (keys c1)) ->
    (forall id, In id (keys c0) -> bnd (Xv id) (slack (qprod b)) /\ forall j, (j < n)%nat -> eqm (mq (Qi pp j)) (row (prows (comp c0 id)) j) (Xv id)) ->
    (forall id, In id (keys c1) -> bnd (Rv id) (slack (qprod b)) /\ (forall j, (j < n)%nat -> eqm (mq (Qi pp j)) (row (prows (comp c1 id)) j) (X1 id)) /\
         add (smul (qprod b) (Yv id)) (Rv id) = smul (mprod b) (X1 id) /\ bnd (X1 id) (lift1 b)) ->
    bparty_digits b h0 c0R Xv (rdig_bound b) -> bparty_digits b h1 c1R Yv (rdig_bound b) ->
    exists out' phi0 phi1 Mx E, MulAndRelinBFVHoisted b o crs c0R c1R h0 h1 rs out = Ok out' /\ wfct pp L false out' /\ (forall x, In x (keys out') <-> In x (keys c0) \/ In x (keys c1)) /\
      (forall j, (j < n)%nat -> eqm (mq (Qi pp j)) (phase pp s c0 j) phi0 /\ eqm (mq (Qi pp j)) (phase pp s c1 j) phi1 /\ eqm (mq (Qi pp j)) (phase pp s out' j) Mx) /\
      bnd phi0 (phase_size N (slack (qprod b)) (length (parties c0)) T) /\ bnd phi1 (phase_size N (lift1 b) (length (parties c1)) T) /\
      smul (qprod b) Mx = add (smul (bT b) (mul phi0 phi1)) E /\ bnd E (bfv_mul_noise N b (length (parties c0)) (length (parties c1)) B T).
  Proof.
    intros O W0 W1 WO KS GU CU HK R0' R1' K0 K1 H0 H1 D0 D1. pose proof (L_n b WB) as LN. pose proof (mprod_pos b WB) as MP. pose proof (qprod_pos b WB) as QP. pose proof (wb_t _ _ WB) as TP.
    pose proof (parties_same c0 c0R (proj1 W0) (proj1 R0') K0) as PM0. pose proof (parties_same c1 c1R (proj1 W1) (proj1 R1') K1) as PM1.
    assert (IP : forall id, In id (parties c0R) \/ In id (parties c1R) <-> In id (parties c0) \/ In id (parties c1)) by (intros id; rewrite !in_parties, K0, K1; tauto).
    destruct (MulBFVHoisted_ok b WB HD o crs c0R c1R h0 h1 rs out s r a1 a2 u B T (rdig_bound b) (rdig_bound b) Xv Yv) as (out' & Mx & E1 & A1 & A2 & A3 & A4 & A5 & A6); trivial.
    { intros x. rewrite KS, K0, K1. reflexivity. }
    { intros id Hid. apply HK. apply IP. exact Hid. }
    assert (BS : forall id, In id (parties c0) \/ In id (parties c1) -> bnd (s id) T).
    { intros id Hid. destruct (HK id Hid) as (key & _ & eb & ed & ev & _ & S & _). exact S. }
    rewrite (iphase_perm s c0 c0R Xv PM0), (iphase_perm s c1 c1R Yv PM1) in A5.
    pose proof W0 as (M0 & I0 & _). pose proof W1 as (M1 & I1 & _).
    set (phi0 := iphase s c0 Xv) in *. set (phi1' := iphase s c1 Yv) in *. set (phi1 := iphase s c1 X1). set (rho := iphase s c1 Rv).
    assert (PB0 : bnd phi0 (phase_size N (slack (qprod b)) (length (parties c0)) T)).
    { apply iphase_bnd; [apply H0; exact I0|]. intros id Hid. split; [|apply BS; left; exact Hid]. apply in_parties in Hid. apply H0. apply Hid. }
    assert (PB1 : bnd phi1 (phase_size N (lift1 b) (length (parties c1)) T)).
    { apply iphase_bnd; [apply H1; exact I1|]. intros id Hid. split; [|apply BS; right; exact Hid]. apply in_parties in Hid. apply H1. apply Hid. }
    assert (PBr : bnd rho (phase_size N (slack (qprod b)) (length (parties c1)) T)).
    { apply iphase_bnd; [apply H1; exact I1|]. intros id Hid. split; [|apply BS; right; exact Hid]. apply in_parties in Hid. apply H1. apply Hid. }
    assert (LIN : add (smul (qprod b) phi1') rho = smul (mprod b) phi1).
    { apply iphase_lin; [apply H1; exact I1|]. intros id Hid. apply in_parties in Hid. apply H1. apply Hid. }
    (* the number of parties of the result *)
    assert (NU : (length (parties out) <= length (parties c0) + length (parties c1))%nat).
    { rewrite <- app_length. apply NoDup_incl_length; [apply parties_nodup; apply WO|]. intros x Hx. apply in_or_app. rewrite in_parties in Hx. rewrite !in_parties. destruct Hx as [Nx Hx]. apply KS in Hx. tauto. }
    assert (NB : bnd E1 (bmul_noise N b (length (parties c0)) (length (parties c1)) (length (parties c0) + length (parties c1)) (rdig_bound b) (rdig_bound b) B T)).
    { apply (bnd_le _ _ _ A4). rewrite (Permutation_length PM0), (Permutation_length PM1). unfold bmul_noise.
      assert (MO : Z.of_nat (length (parties out)) * (Z.of_nat N * slack (mprod b) * T) <= Z.of_nat (length (parties c0) + length (parties c1)) * (Z.of_nat N * slack (mprod b) * T)); [|lia].
      destruct (parties c0 ++ parties c1) as [|id l] eqn:EP.
      - apply (f_equal (@length string)) in EP. rewrite app_length in EP. cbn [length] in EP. replace (length (parties out)) with 0%nat by lia. replace (length (parties c0) + length (parties c1))%nat with 0%nat by lia. lia.
      - assert (T0 : 0 <= T). { apply (bnd_nonneg (s id)); [pose proof (proj1 (wf_N _ _ WF)); lia|]. apply BS. apply in_app_or. rewrite EP. left. reflexivity. }
        apply Z.mul_le_mono_nonneg_r; [|lia]. apply Z.mul_nonneg_nonneg; [|exact T0]. apply Z.mul_nonneg_nonneg; [lia|]. apply slack_nonneg. lia. }
    (* M (Q Mx - t phi0 phi1) = Q E1 - t phi0 rho *)
    set (E := sub (smul (qprod b) Mx) (smul (bT b) (mul phi0 phi1))).
    assert (EE : smul (mprod b) E = sub (smul (qprod b) E1) (smul (bT b) (mul phi0 rho))).
    { unfold E. rewrite !smul_cst in *.
      transitivity (sub (mul (cst (qprod b)) (mul (cst (mprod b)) Mx)) (mul (cst (bT b)) (mul phi0 (mul (cst (mprod b)) phi1)))); [ring|]. rewrite A5, <- LIN. ring. }
    exists out', phi0, phi1, Mx, E. split; [exact A1|]. split; [exact A2|]. split; [intros x; rewrite A3; apply KS|]. split.
    { intros j Hj. assert (Hj' : (j <= L)%nat) by (rewrite <- LN in Hj; lia). split; [|split; [|apply A6; exact Hj']].
      - apply (iphase_eqm b s c0 Xv j W0 Hj'). intros id Hid. apply H0; assumption.
      - apply (iphase_eqm b s c1 X1 j W1 Hj'). intros id Hid. apply H1; assumption. }
    split; [exact PB0|]. split; [exact PB1|]. split; [unfold E; ring|].
    unfold bfv_mul_noise. apply bnd_div; [exact MP|]. rewrite EE. apply bnd_sub.
    - replace (qprod b) with (Z.abs (qprod b)) at 2 by (apply Z.abs_eq; lia). apply bnd_smul. exact NB.
    - replace (bT b) with (Z.abs (bT b)) at 2 by (apply Z.abs_eq; lia). apply bnd_smul. apply bnd_mul; assumption.
  Qed.

  Lemma digits_none (c : ct) Xv : rct b c Xv -> bparty_digits b None c Xv (rdig_bound b).
  Proof.
    intros RC id Hid. apply in_parties in Hid as [_ Hid]. unfold bhdig. rewrite (rct_get b WB HD c Xv id RC Hid). cbn [rbind]. destruct RC as (_ & _ & RC).
    destruct (DecomposeBFV_ok b WB HD _ _ (RC id Hid)) as (d1 & d2 & E & D). exists d1, d2. eexists. split; [exact E|exact D].
  Qed.
  Lemma digits_some (c : ct) Xv l : rct b c Xv -> (forall x, In x l <-> In x (parties c)) ->
    exists h, hoistCt b L l c = Ok h /\ (forall id, In id (parties c) -> bhdig b L (Some h) c id = bhdig b L None c id) /\ bparty_digits b (Some h) c Xv (rdig_bound b).
  Proof.
    intros RC HL. pose proof (digits_none c Xv RC) as DN.
    destruct (list_choice (parties c) (fun id (y : swk N * swk N) => bhdig b L None c id = Ok y) (nil, nil)) as [f Hf].
    { intros id Hid. destruct (DN id Hid) as (d1 & d2 & D & E & _). exists (d1, d2). exact E. }
    assert (HE : forall id, In id (parties c) -> In id (keys c) /\ DecomposeBFV b L (prows (comp c id)) = Ok (f id)).
    { intros id Hid. specialize (Hf id Hid). apply in_parties in Hid as [_ Hid]. split; [exact Hid|]. unfold bhdig in Hf. rewrite (rct_get b WB HD c Xv id RC Hid) in Hf. exact Hf. }
    destruct (hoistCt_ok b L l c f) as (h & A & G); [intros id Hid; apply HE; apply HL; exact Hid|].
    assert (SAME : forall id, In id (parties c) -> bhdig b L (Some h) c id = bhdig b L None c id).
    { intros id Hid. rewrite Hf by exact Hid. unfold bhdig. apply G. apply HL. exact Hid. }
    exists h. split; [exact A|]. split; [exact SAME|]. intros id Hid. rewrite SAME by exact Hid. apply DN. exact Hid.
  Qed.

  (** mulRelinHoisted and mulRelin compute the same ciphertext *)
  Lemma bv_eq level (o : IdSetModel.order) crs (rs : brlkset N) h0 (op0 : ct) ids0 y1 y2 out :
    (forall id, In id (o 8%nat (keys ids0)) -> bhdig b level h0 op0 id = bhdig b level None op0 id) -> bvStageH b level o crs rs h0 op0 ids0 y1 y2 out = bvStage b level o crs rs op0 ids0 y1 y2 out.
  Proof.
    intros H. unfold bvStageH, bvStage. destruct (crs_get crs (-1)) as [u|]; cbn [rbind]; [|reflexivity]. apply rfold_ext. intros c id Hid. destruct (brlk_get rs id) as [k|]; cbn [rbind]; [|reflexivity].
    unfold bExtOp. rewrite (H id Hid). destruct (bhdig b level None op0 id) as [[d1 d2]|]; cbn [rbind]; [|reflexivity]. destruct (ExternalProductBFVHoisted b level d1 d2 y1 y2) as [w|]; cbn [rbind]; [|reflexivity].
    rewrite !ext_is_hoisted. destruct (Decompose pp level (Pol w false)) as [dw|] eqn:E; cbn [rbind]; [|reflexivity].
    destruct (ExternalProductHoisted pp level dw (br_v k)) as [ev|]; cbn [rbind]; [|reflexivity]. destruct (cget c id0) as [q0|]; cbn [rbind]; [|reflexivity].
    destruct (cwr c id0 _) as [c'|]; cbn [rbind]; reflexivity.
  Qed.
  Lemma bMul_is_hoisted (o : IdSetModel.order) crs (op0 op1 : ct) h0 h1 (rs : brlkset N) out : order_ok o -> ctLevel out = Ok L ->
    (forall id, In id (parties op0) -> bhdig b L h0 op0 id = bhdig b L None op0 id) -> (forall id, In id (parties op1) -> bhdig b L h1 op1 id = bhdig b L None op1 id) ->
    MulAndRelinBFVHoisted b o crs op0 op1 h0 h1 rs out = MulAndRelinBFV b o crs op0 op1 rs out.
  Proof.
    intros O EL H0 H1. unfold MulAndRelinBFVHoisted, MulAndRelinBFV. rewrite EL. cbn [rbind]. destruct (ctLevel op0) as [l0|]; cbn [rbind]; [|reflexivity]. destruct (l0 <? L)%nat; [reflexivity|].
    destruct (ids_of (o 0%nat) op0) as (ids0 & A0 & M0 & N0 & S0 & K0); [intros l; apply O|]. destruct (ids_of (o 1%nat) op1) as (ids1 & A1 & M1 & N1 & S1 & K1); [intros l; apply O|].
    rewrite A0, A1. cbn [rbind].
    assert (P0 : forall m id, In id (o m (keys ids0)) -> In id (parties op0)) by (intros m id Hid; apply (Permutation_in _ (O m _)) in Hid; apply K0 in Hid; apply in_parties; exact Hid).
    assert (P1 : forall m id, In id (o m (keys ids1)) -> In id (parties op1)) by (intros m id Hid; apply (Permutation_in _ (O m _)) in Hid; apply K1 in Hid; apply in_parties; exact Hid).
    assert (GV : forall s1 s2 h (op : ct) l, (forall id, In id l -> bhdig b L h op id = bhdig b L None op id) -> bGenVec b L s1 s2 h op rs l = bGenVec b L s1 s2 None op rs l).
    { intros s1 s2 h op l H. unfold bGenVec. cbv zeta. f_equal. apply rfold_ext. intros acc id Hid. rewrite (H id Hid). reflexivity. }
    rewrite (GV br_d1 br_d2 h0 op0) by (intros id Hid; apply H0; apply (P0 2%nat); exact Hid). destruct (bGenVec b L br_d1 br_d2 None op0 rs _) as [[x1 x2]|]; cbn [rbind]; [|reflexivity].
    rewrite (GV br_b1 br_b2 h1 op1) by (intros id Hid; apply H1; apply (P1 3%nat); exact Hid). destruct (bGenVec b L br_b1 br_b2 None op1 rs _) as [[y1 y2]|]; cbn [rbind]; [|reflexivity].
    destruct (bProdStage b o op0 op1 ids0 ids1 out) as [out1|]; cbn [rbind]; [|reflexivity].
    assert (XS : bxStage b L o h1 op1 ids1 x1 x2 out1 = bxStage b L o None op1 ids1 x1 x2 out1).
    { unfold bxStage. apply rfold_ext. intros c id Hid. unfold bExtOp. rewrite (H1 id (P1 7%nat id Hid)). reflexivity. }
    rewrite XS. destruct (bxStage b L o None op1 ids1 x1 x2 out1) as [out2|]; cbn [rbind]; [|reflexivity].
    apply bv_eq. intros id Hid. apply H0. apply (P0 8%nat). exact Hid.
  Qed.

  Definition relin_keys (s r : string -> R) crs (rs : brlkset N) B T (c0 c1 : ct) : Prop :=
    exists a1 a2 u, mget Z.eq_dec crs 0 = Some a1 /\ mget Z.eq_dec crs (-3) = Some a2 /\ mget Z.eq_dec crs (-1) = Some u /\ crs_ok pp u /\
      forall id, In id (parties c0) \/ In id (parties c1) -> exists key, brlk_get rs id = Ok key /\ brelin_ok b a1 a2 u (s id) (r id) B T key.

  Theorem mul_ok (o : IdSetModel.order) crs (c0 c1 : ct) (rs : brlkset N) out (s r : string -> R) B T : order_ok o -> wfct pp L false c0 -> wfct pp L false c1 ->
    wfct pp L false out -> (forall x, In x (keys out) <-> In x (keys c0) \/ In x (keys c1)) -> relin_keys s r crs rs B T c0 c1 ->
    exists out' phi0 phi1 Mx E, bMulRelinHoisted b o crs c0 c1 rs out = Ok out' /\ bMulRelin b o crs c0 c1 rs out = Ok out' /\ wfct pp L false out' /\ (forall x, In x (keys out') <-> In x (keys c0) \/ In x (keys c1)) /\
      (forall j, (j < n)%nat -> eqm (mq (Qi pp j)) (phase pp s c0 j) phi0 /\ eqm (mq (Qi pp j)) (phase pp s c1 j) phi1 /\ eqm (mq (Qi pp j)) (phase pp s out' j) Mx) /\
      bnd phi0 (phase_size N (slack (qprod b)) (length (parties c0)) T) /\ bnd phi1 (phase_size N (lift1 b) (length (parties c1)) T) /\
      smul (qprod b) Mx = add (smul (bT b) (mul phi0 phi1)) E /\ bnd E (bfv_mul_noise N b (length (parties c0)) (length (parties c1)) B T).
  Proof.
    intros O W0 W1 WO KS (a1 & a2 & u & _ & _ & GU & CU & HK).
    destruct (lift_ops o c0 c1 O W0 W1) as (c0R & c1R & Xv & Yv & X1 & Rv & A1 & A2 & A3 & A4 & A5 & A6 & A7 & A8).
    destruct (ids_of (o 42%nat) c0) as (ids0 & B0 & M0 & N0 & S0 & K0); [intros l; apply O|]. destruct (ids_of (o 43%nat) c1) as (ids1 & B1 & M1 & N1 & S1 & K1); [intros l; apply O|].
    destruct (digits_some c0R Xv (o 44%nat (keys ids0)) A3) as (h0 & H01 & H02 & H03).
    { intros x. rewrite in_parties, A5, <- K0. split; apply Permutation_in; [|symmetry]; apply O. }
    destruct (digits_some c1R Yv (o 45%nat (keys ids1)) A4) as (h1 & H11 & H12 & H13).
    { intros x. rewrite in_parties, A6, <- K1. split; apply Permutation_in; [|symmetry]; apply O. }
    destruct (mul_core o crs c0 c1 c0R c1R (Some h0) (Some h1) rs out s r a1 a2 u B T Xv Yv X1 Rv) as (out' & phi0 & phi1 & Mx & E & C1 & C2); trivial.
    exists out', phi0, phi1, Mx, E. split; [|split; [|exact C2]].
    - unfold bMulRelinHoisted. rewrite A1. cbn [rbind]. rewrite A2. cbn [rbind]. rewrite B0. cbn [rbind]. rewrite B1. cbn [rbind]. rewrite (wfct_level pp _ _ _ W0). cbn [rbind]. rewrite H01. cbn [rbind].
      rewrite (wfct_level pp _ _ _ W1). cbn [rbind]. rewrite H11. cbn [rbind]. exact C1.
    - unfold bMulRelin. rewrite A1. cbn [rbind]. rewrite A2. cbn [rbind]. rewrite <- C1. symmetry. apply bMul_is_hoisted; trivial. apply (wfct_level pp _ _ _ WO).
  Qed.
End C40.

(** ** C40 *)
(** MulRelinNew: the decryption Mx of the result and the decryptions phi0, phi1 of the operands (integer polynomials, the operands' of known size)
    satisfy Q Mx = t phi0 phi1 + E with E of explicit size, for every number of parties *)
Theorem C40_mul : forall N b (o : IdSetModel.order) crs (c0 c1 : ctT N) (rs : brlkset N) (s r : string -> R N) B T, wfb N b -> (length (bQ b) mod alpha (ppQ b) = 0)%nat -> order_ok o ->
  wfct (ppQ b) (maxLevel (ppQ b)) false c0 -> wfct (ppQ b) (maxLevel (ppQ b)) false c1 -> relin_keys b s r crs rs B T c0 c1 ->
  exists out phi0 phi1 Mx E, bMulRelinNew b o crs c0 c1 rs = Ok out /\ wfct (ppQ b) (maxLevel (ppQ b)) false out /\ (forall x, In x (keys out) <-> In x (keys c0) \/ In x (keys c1)) /\
    (forall j, (j < length (bQ b))%nat -> eqm (mq (Qi (ppQ b) j)) (phase (ppQ b) s c0 j) phi0 /\ eqm (mq (Qi (ppQ b) j)) (phase (ppQ b) s c1 j) phi1 /\ eqm (mq (Qi (ppQ b) j)) (phase (ppQ b) s out j) Mx) /\
    bnd phi0 (phase_size N (slack (qprod b)) (length (parties c0)) T) /\ bnd phi1 (phase_size N (lift1 b) (length (parties c1)) T) /\
    smul (qprod b) Mx = add (smul (bT b) (mul phi0 phi1)) E /\ bnd E (bfv_mul_noise N b (length (parties c0)) (length (parties c1)) B T).
Proof.
  intros N b o crs c0 c1 rs s r B T WB HD O W0 W1 HK. unfold bMulRelinNew.
  destruct (bNewBinary_ok (ppQ b) (wf_ppQ b WB) o c0 c1 O) as (out & EO & WO & KO); [apply W0|]. rewrite EO. cbn [rbind].
  destruct (mul_ok b WB HD o crs c0 c1 rs out s r B T O W0 W1 WO) as (out' & phi0 & phi1 & Mx & E & A1 & _ & A2); trivial.
  { intros x. rewrite KO. pose proof W0 as (_ & I0 & _). destruct (string_dec x id0) as [->|]; tauto. }
  exists out', phi0, phi1, Mx, E. split; [exact A1|exact A2].
Qed.
Print Assumptions C40_mul.

(** the unhoisted and the hoisted multiplication write the same ciphertext *)
Theorem C40_hoisting_agrees : forall N b (o : IdSetModel.order) crs (c0 c1 : ctT N) (rs : brlkset N) out (s r : string -> R N) B T, wfb N b -> (length (bQ b) mod alpha (ppQ b) = 0)%nat -> order_ok o ->
  wfct (ppQ b) (maxLevel (ppQ b)) false c0 -> wfct (ppQ b) (maxLevel (ppQ b)) false c1 -> wfct (ppQ b) (maxLevel (ppQ b)) false out -> (forall x, In x (keys out) <-> In x (keys c0) \/ In x (keys c1)) ->
  relin_keys b s r crs rs B T c0 c1 -> exists out', bMulRelinHoisted b o crs c0 c1 rs out = Ok out' /\ bMulRelin b o crs c0 c1 rs out = Ok out'.
Proof.
  intros N b o crs c0 c1 rs out s r B T WB HD O W0 W1 WO KS HK. destruct (mul_ok b WB HD o crs c0 c1 rs out s r B T O W0 W1 WO KS HK) as (out' & phi0 & phi1 & Mx & E & A1 & A2 & _).
  exists out'. split; assumption.
Qed.
Print Assumptions C40_hoisting_agrees.

Section Alg.
  Context {N : nat}.
  Add Ring R_ring37 : (@R_ring_theory N).
  Lemma prod_alg (t Q : Z) (phi0 phi1 Mx E M0 M1 v0 v1 : R N) : smul t phi0 = add (smul Q M0) v0 -> smul t phi1 = add (smul Q M1) v1 -> smul Q Mx = add (smul t (mul phi0 phi1)) E ->
    smul Q (sub (smul t Mx) (smul Q (mul M0 M1))) = add (sub (add (smul t (mul phi0 v1)) (smul t (mul phi1 v0))) (mul v0 v1)) (smul t E).
  Proof.
    intros X0 X1 A. rewrite !smul_cst in *.
    transitivity (sub (mul (cst t) (mul (cst Q) Mx)) (mul (mul (cst Q) M0) (mul (cst Q) M1))); [ring|]. rewrite A.
    transitivity (add (sub (mul (mul (cst t) phi0) (mul (cst t) phi1)) (mul (mul (cst Q) M0) (mul (cst Q) M1))) (mul (cst t) E)); [ring|]. rewrite X0, X1.
    transitivity (add (sub (add (mul (mul (cst t) phi0) v1) (mul (mul (cst t) phi1) v0)) (mul v0 v1)) (mul (cst t) E)); [rewrite X0, X1|]; ring.
  Qed.
  Lemma prod_msg (t : Z) (m0 m1 w0 w1 : R N) : mul (add m0 (smul t w0)) (add m1 (smul t w1)) = add (mul m0 m1) (smul t (add (add (mul m0 w1) (mul w0 m1)) (smul t (mul w0 w1)))).
  Proof. rewrite !smul_cst. ring. Qed.
  Lemma bnd_smul' z (a : R N) A : 0 <= z -> bnd a A -> bnd (smul z a) (z * A).
  Proof. intros H B. replace (z * A) with (Z.abs z * A) by (rewrite Z.abs_eq by exact H; reflexivity). apply bnd_smul. exact B. Qed.
  Lemma sub_add_c (a b : R N) : a = add b (sub a b). Proof. ring. Qed.
End Alg.

(** messages multiply, and the noise of the product is explicit *)
Lemma encodes_shift {N} b (s : string -> R N) c m V (Y : R N) : wfb N b -> encodes b s c m V -> (forall j, (j < length (bQ b))%nat -> eqm (mq (Qi (ppQ b) j)) (phase (ppQ b) s c j) Y) ->
  exists v w, smul (bT b) Y = add (smul (qprod b) (add m (smul (bT b) w))) v /\ bnd v V.
Proof.
  intros WB (X & v & w & H1 & H2 & H3) HY.
  assert (EQ : eqm (qprod b) Y X) by (apply (eqm_qprod b WB); intros j Hj; rewrite <- HY by exact Hj; apply H1; exact Hj).
  assert (E0 : eqm (qprod b) (sub Y X) R0). { apply eqm_co. intros i Hi. rewrite co_R0, co_sub. pose proof (proj1 (eqm_co _ _ _) EQ i Hi) as D. rewrite Z.sub_0_r. exact D. }
  destruct (eqm0_smul _ _ E0) as [d Hd]. exists v, (add w d). split; [|exact H3].
  apply R_ext. intros i Hi. apply (f_equal (fun r => co r i)) in Hd. apply (f_equal (fun r => co r i)) in H2. rewrite ?co_add, ?co_sub, ?co_smul, ?co_add, ?co_smul, ?co_add in *. nia.
Qed.
Theorem C40_product : forall N b (o : IdSetModel.order) crs (c0 c1 : ctT N) (rs : brlkset N) (s r : string -> R N) B T m0 m1 V0 V1, wfb N b -> (length (bQ b) mod alpha (ppQ b) = 0)%nat -> order_ok o ->
  wfct (ppQ b) (maxLevel (ppQ b)) false c0 -> wfct (ppQ b) (maxLevel (ppQ b)) false c1 -> relin_keys b s r crs rs B T c0 c1 ->
  encodes b s c0 m0 V0 -> encodes b s c1 m1 V1 ->
  exists out, bMulRelinNew b o crs c0 c1 rs = Ok out /\ wfct (ppQ b) (maxLevel (ppQ b)) false out /\ (forall x, In x (keys out) <-> In x (keys c0) \/ In x (keys c1)) /\
    encodes b s out (mul m0 m1) (bfv_prod_noise N b (length (parties c0)) (length (parties c1)) B T V0 V1).
Proof.
  intros N b o crs c0 c1 rs s r B T m0 m1 V0 V1 WB HD O W0 W1 HK E0 E1.
  destruct (C40_mul N b o crs c0 c1 rs s r B T WB HD O W0 W1 HK) as (out & phi0 & phi1 & Mx & E & A1 & A2 & A3 & A4 & A5 & A6 & A7 & A8).
  exists out. split; [exact A1|]. split; [exact A2|]. split; [exact A3|].
  destruct (encodes_shift b s c0 m0 V0 phi0 WB E0) as (v0 & w0 & X0 & Y0); [intros j Hj; apply A4; exact Hj|].
  destruct (encodes_shift b s c1 m1 V1 phi1 WB E1) as (v1 & w1 & X1 & Y1); [intros j Hj; apply A4; exact Hj|].
  pose proof (qprod_pos b WB) as QP. pose proof (wb_t _ _ WB) as TP.
  pose proof (prod_alg (bT b) (qprod b) phi0 phi1 Mx E _ _ v0 v1 X0 X1 A7) as ID. rewrite prod_msg in ID.
  exists Mx, (sub (smul (bT b) Mx) (smul (qprod b) (add (mul m0 m1) (smul (bT b) (add (add (mul m0 w1) (mul w0 m1)) (smul (bT b) (mul w0 w1))))))), (add (add (mul m0 w1) (mul w0 m1)) (smul (bT b) (mul w0 w1))).
  split; [intros j Hj; apply A4; exact Hj|]. split; [apply sub_add_c|].
  unfold bfv_prod_noise. apply bnd_div; [exact QP|]. rewrite ID. apply bnd_add; [apply bnd_sub; [apply bnd_add|]|].
  - apply bnd_smul'; [lia|]. apply bnd_mul; assumption.
  - apply bnd_smul'; [lia|]. apply bnd_mul; assumption.
  - apply bnd_mul; assumption.
  - apply bnd_smul'; [lia|]. exact A8.
Qed.
Print Assumptions C40_product.

(** a ciphertext whose noise is below Q/2: rounding t/Q times any lift of its decryption gives the message modulo t *)
Theorem C40_rounds : forall N b (s : string -> R N) (c : ctT N) m V (X : R N) i, wfb N b -> encodes b s c m V -> 2 * V < qprod b ->
  (forall j, (j < length (bQ b))%nat -> eqm (mq (Qi (ppQ b) j)) (phase (ppQ b) s c j) X) -> (i < N)%nat ->
  (bT b | (2 * (bT b * co X i) + qprod b) / (2 * qprod b) - co m i).
Proof.
  intros N b s c m V X i WB E HV HX Hi. destruct (encodes_shift b s c m V X WB E HX) as (v & w & H & BV). pose proof (qprod_pos b WB) as QP.
  apply (f_equal (fun r => co r i)) in H. rewrite ?co_add, ?co_smul, ?co_add, ?co_smul in H. specialize (BV i Hi).
  rewrite H. set (z := co m i + bT b * co w i). replace (2 * (qprod b * z + co v i) + qprod b) with (2 * co v i + qprod b + z * (2 * qprod b)) by ring.
  rewrite Z.div_add by lia. rewrite Z.div_small by lia. exists (co w i). unfold z. ring.
Qed.
Print Assumptions C40_rounds.

(** MulRelinNew then Decrypt with the keys of all parties: the rows are the residues of an integer polynomial, and rounding t/Q times any such polynomial
    gives the product of the messages modulo t, if the noise of the product is below Q/2 *)
Theorem C40_decrypts : forall N b (o o' : IdSetModel.order) crs (c0 c1 : ctT N) (rs : brlkset N) sks (s r : string -> R N) B T m0 m1 V0 V1, wfb N b -> (length (bQ b) mod alpha (ppQ b) = 0)%nat -> order_ok o -> order_ok o' ->
  wfct (ppQ b) (maxLevel (ppQ b)) false c0 -> wfct (ppQ b) (maxLevel (ppQ b)) false c1 -> relin_keys b s r crs rs B T c0 c1 ->
  keys_ok (ppQ b) (fun _ => True) s sks -> incl (parties c0) (keys sks) -> incl (parties c1) (keys sks) ->
  encodes b s c0 m0 V0 -> encodes b s c1 m1 V1 -> 2 * bfv_prod_noise N b (length (parties c0)) (length (parties c1)) B T V0 V1 < qprod b ->
  exists out p, bMulRelinNew b o crs c0 c1 rs = Ok out /\ bDecrypt (ppQ b) o' out sks = Ok p /\
    (exists X, residues (Qs (ppQ b)) (prows p) X) /\
    forall X i, residues (Qs (ppQ b)) (prows p) X -> (i < N)%nat -> (bT b | (2 * (bT b * co X i) + qprod b) / (2 * qprod b) - co (mul m0 m1) i).
Proof.
  intros N b o o' crs c0 c1 rs sks s r B T m0 m1 V0 V1 WB HD O O' W0 W1 HK KO I0 I1 E0 E1 HV.
  destruct (C40_product N b o crs c0 c1 rs s r B T m0 m1 V0 V1 WB HD O W0 W1 HK E0 E1) as (out & A1 & A2 & A3 & A4).
  destruct (C16_decrypt N (ppQ b) o' out s sks (wf_ppQ b WB) O' A2) as (p & P1 & P2 & P3).
  { destruct KO as [A C]. split; [exact A|]. intros id k Hk. destruct (C id k Hk) as [C1 C2]. split; [exact C1|]. intros _. apply C2. exact I. }
  { intros x Hx. apply in_parties in Hx as [Nx Hx]. apply A3 in Hx as [Hx|Hx]; [apply I0|apply I1]; apply in_parties; split; assumption. }
  pose proof (L_n b WB) as LN. exists out, p. split; [exact A1|]. split; [exact P1|]. split.
  - destruct A4 as (X & v & w & HX & _). exists X. apply res_Q; [destruct P2 as [LP _]; rewrite LP, LN; reflexivity|]. intros j Hj. eapply eqm_trans; [apply P3; rewrite <- LN in Hj; lia|apply HX; exact Hj].
  - intros X i HX Hi. apply (C40_rounds N b s out (mul m0 m1) _ X i WB A4 HV); [|exact Hi]. intros j Hj. apply eqm_sym. eapply eqm_trans; [|apply P3; rewrite <- LN in Hj; lia].
    apply eqm_sym. apply eqm_co. intros x Hx. destruct HX as [_ HX]. specialize (HX j x). rewrite (nth_Q b) in HX by exact Hj. apply HX; [rewrite Qs_len; exact Hj|exact Hx].
Qed.
Print Assumptions C40_decrypts.

(** key generation produces such keys from any samples; with a chain whose length alpha does not divide it always panics *)
Theorem C40_keygen : forall N b B T (eb ed ev : nat -> R N) (sb1 sb2 sd1 sd2 sv : nat -> list (R N)) crs a1 a2 u sk r s rr, wfb N b -> (length (bQ b) mod alpha (ppQ b) = 0)%nat -> small_ok (ppQ b) B ->
  (forall k, (k < bbeta b)%nat -> is_sample (ppQ b) B (eb k) (sb1 k) /\ is_sample (ppQ b) B (eb (bbeta b + k)%nat) (sb2 k) /\ is_sample (ppQ b) B (ed k) (sd1 k) /\ is_sample (ppQ b) B (ed (bbeta b + k)%nat) (sd2 k) /\ is_sample (ppQ b) B (ev k) (sv k)) ->
  mval (ppQ b) (maxLevel (ppQ b)) (sk_val sk) (fun _ => s) -> mval (ppQ b) (maxLevel (ppQ b)) (sk_val r) (fun _ => rr) -> bnd s T -> bnd rr T ->
  mget Z.eq_dec crs 0 = Some a1 -> mget Z.eq_dec crs (-3) = Some a2 -> mget Z.eq_dec crs (-1) = Some u -> crs_ok (ppQ b) a1 -> crs_ok (ppQ b) a2 -> crs_ok (ppQ b) u ->
  exists key, bGenRelinearizationKey b crs sk r sb1 sb2 sd1 sd2 sv = Ok key /\ br_id key = sk_id sk /\ brelin_ok b a1 a2 u s rr B T key.
Proof. intros N b B T eb ed ev sb1 sb2 sd1 sd2 sv crs a1 a2 u sk r s rr WB HD. apply (bGenRelinearizationKey_ok b WB HD). Qed.
Print Assumptions C40_keygen.
Theorem C40_keygen_uneven_blocks_refuted : forall N b crs (sk r : secretKey N) e1 e2 e3 e4 e5, wfb N b -> (length (bQ b) mod alpha (ppQ b) <> 0)%nat -> bGenRelinearizationKey b crs sk r e1 e2 e3 e4 e5 = Panic.
Proof. intros N b crs sk r e1 e2 e3 e4 e5 WB H. apply bGenRelinearizationKey_panic; assumption. Qed.

(** the key of a party of either operand missing: MulRelinNew panics *)
Theorem C40_missing_key : forall N b (o : IdSetModel.order) crs (c0 c1 : ctT N) (rs : brlkset N) id, wfb N b -> (length (bQ b) mod alpha (ppQ b) = 0)%nat -> order_ok o ->
  wfct (ppQ b) (maxLevel (ppQ b)) false c0 -> wfct (ppQ b) (maxLevel (ppQ b)) false c1 -> In id (parties c0) \/ In id (parties c1) -> mget seq_dec rs id = None ->
  bMulRelinNew b o crs c0 c1 rs = Panic.
Proof.
  intros N b o crs c0 c1 rs id WB HD O W0 W1 Hid G. unfold bMulRelinNew. destruct (bNewBinary (ppQ b) o c0 c1) as [out|]; cbn [rbind]; [|reflexivity].
  destruct (lift_ops b WB HD o c0 c1 O W0 W1) as (c0R & c1R & Xv & Yv & X1 & Rv & A1 & A2 & A3 & A4 & A5 & A6 & A7 & A8).
  unfold bMulRelinHoisted. rewrite A1. cbn [rbind]. rewrite A2. cbn [rbind].
  destruct (IDSetOf (o 42%nat) c0); cbn [rbind]; [|reflexivity]. destruct (IDSetOf (o 43%nat) c1); cbn [rbind]; [|reflexivity]. destruct (ctLevel c0); cbn [rbind]; [|reflexivity].
  destruct (hoistCt b _ _ c0R); cbn [rbind]; [|reflexivity]. destruct (ctLevel c1); cbn [rbind]; [|reflexivity]. destruct (hoistCt b _ _ c1R); cbn [rbind]; [|reflexivity].
  unfold MulAndRelinBFVHoisted. destruct (ctLevel out); cbn [rbind]; [|reflexivity]. destruct (ctLevel c0R); cbn [rbind]; [|reflexivity]. destruct (_ <? _)%nat; [reflexivity|].
  destruct (ids_of (o 0%nat) c0R) as (ids0 & B0 & M0 & N0 & S0 & K0); [intros l; apply O|]. destruct (ids_of (o 1%nat) c1R) as (ids1 & B1 & M1 & N1 & S1 & K1); [intros l; apply O|].
  rewrite B0. cbn [rbind]. rewrite B1. cbn [rbind].
  assert (GV : forall lv s1 s2 h (op : ctT N) l, In id l -> bGenVec b lv s1 s2 h op rs l = Panic).
  { intros lv s1 s2 h op l I. unfold bGenVec. cbv zeta. rewrite (rfold_panic _ l id I); [reflexivity|]. intros acc. destruct (bhdig b lv h op id) as [[d1 d2]|]; cbn [rbind]; [|reflexivity].
    unfold brlk_get. rewrite G. reflexivity. }
  destruct Hid as [Hid|Hid].
  - rewrite (GV _ br_d1 br_d2); [reflexivity|]. apply (Permutation_in _ (Permutation_sym (O 2%nat _))). apply K0. apply in_parties in Hid. rewrite A5. exact Hid.
  - destruct (bGenVec b _ br_d1 br_d2 _ c0R rs _) as [[x1 x2]|]; cbn [rbind]; [|reflexivity].
    rewrite (GV _ br_b1 br_b2); [reflexivity|]. apply (Permutation_in _ (Permutation_sym (O 3%nat _))). apply K1. apply in_parties in Hid. rewrite A6. exact Hid.
Qed.
Print Assumptions C40_missing_key.
