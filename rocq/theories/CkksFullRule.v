(** C63: the precision rule of C52 for client programs over the whole mkckks evaluator interface, in place calls included (CkksFull.v).
    Specification (gb, grule) first, then the proof that the rule dominates the bounds of C61. *)
From Flocq Require Import Core BinarySingleNaN.
From Coq Require Import Znumtheory Setoid Morphisms Reals Lra.
From Verif Require Import Base IdSetModel KeySetModel NumTheory Negacyclic Ntt Word BasisExt BasisExtProofs DecompProofs BasisSpec Rows RlweModel KeyGenModel SchemeSpec ExtProd ExtProps Galois KeyGenProofs CtModel CtSpec CtProofs EncDecProofs EncMsgModel KeySwitchModel Digits KsLoops RotProofs ConjProofs MulProofs PropsEnc PropsKeySwitch PropsRotate FloatModel CkksFloat CkksModel FloatProofs CkksFloatProofs CkksProofs CkksRescale PropsCkks PropsRescale PropsConst Slots PropsSlots CkksSlots CkksCircuit PropsCkksCircuit PropsCkksScale PropsCkksCircuitEx CkksBudget HeapModel HeapProofs HeapEval CkksFull PropsCkksFull.
Open Scope Z_scope.

(** *** the rule: for every ciphertext its parties, its level and bounds (CkksBudget.v: kb), and whether its scale is still multiplied by a modulus (after MultByConst by a
    constant with a fraction, before Rescale) *)
Record gb := GB { gids : list string; gk : kb; gdbl : bool }.
Notation gb0 := (GB nil (KB 0 0 0) false).
Section Rule.
  (** ps: the scale given to Rescale (the default scale of the parameters); L, cA, cR, cM, cD: see CkksBudget.v; cX: representation of a constant with a fraction; hrots: rotations with an own key *)
  Variables (N : nat) (ps : f64) (L : nat) (cA cR cM cD cX : RR) (pb : list (RR * RR)) (hrots : list Z).
  Definition gparts (i : kinstr) (bs : list gb) : list string :=
    let p a := gids (nth a bs gb0) in match i with KAdd i j | KSub i j | KMul i j => p i ++ p j | KRot i _ | KConj i | KPt i _ | KDrop i _ => p i end.
  Definition gcall (i : kinstr) (bs : list gb) : gb := GB (gparts i bs) (kcost L cA cR cM cD pb i (map gk bs)) false.
  Definition gfree (i : kinstr) (bs : list gb) : Prop := (forall a, In a (kuses i) -> gdbl (nth a bs gb0) = false) /\ kokb L pb i (map gk bs).
  Definition same (a b : list string) : Prop := forall x, In x a <-> In x b.
  Definition scaled (l : nat) (x : RR) (b : kb) : kb := KB l (Rabs x * bmu b) (Rabs x * berr b).
  Definition fraced (l : nat) (x : RR) (b : kb) : kb := KB l (Rabs x * bmu b) (Rabs x * berr b + (cD * Rabs x + cX) * (bmu b + berr b)).
  Definition rescaled (b : kb) : kb := KB (bl b - 1) (bmu b) (berr b + cD * (bmu b + berr b) + cM).
  Inductive grule (bs : list gb) : ginstr -> list gb -> Prop :=
  | gr_call i : gfree i bs -> grule bs (GCall i) (bs ++ [gcall i bs])
  | gr_copy a b : nth_error bs a = Some b -> grule bs (GCopy a) (bs ++ [b])
  | gr_drop a n P b : nth_error bs a = Some (GB P b false) -> (n <= bl b)%nat -> grule bs (GDrop a n) (upd bs a (GB P (KB (bl b - n) (bmu b) (berr b)) false))
  | gr_int a k r z P b P' b' d : nth_error bs a = Some (GB P b false) -> nth_error bs r = Some (GB P' b' d) -> same P P' -> (bl b' <= bl b)%nat -> int_const k z -> Z.abs z < 2 ^ 52 ->
      grule bs (GConst a k r) (upd bs r (GB P (scaled (bl b') (IZR z) b) false))
  | gr_frac a k r (x : f64) P b P' b' d : nth_error bs a = Some (GB P b false) -> nth_error bs r = Some (GB P' b' d) -> same P P' -> (1 <= bl b' <= bl b)%nat -> k = CFloat x \/ k = CComplex x f_zero ->
      is_finite x = true -> (Rabs (B2R x) < IZR (2 ^ 63))%R -> (forall z, B2R x <> IZR z) ->
      grule bs (GConst a k r) (upd bs r (GB P (fraced (bl b') (B2R x) b) true))
  | gr_rescale_none a b : nth_error bs a = Some b -> gdbl b = false -> grule bs (GRescale a ps a) bs
  | gr_rescale a P b : nth_error bs a = Some (GB P b true) -> grule bs (GRescale a ps a) (upd bs a (GB P (rescaled b) false))
  | gr_rescale_into a r P b P' b' d : a <> r -> nth_error bs a = Some (GB P b true) -> nth_error bs r = Some (GB P' b' d) -> same P P' -> (bl b - 1 <= bl b')%nat ->
      grule bs (GRescale a ps r) (upd bs r (GB P (rescaled b) false))
  | gr_rescale_new a P b : nth_error bs a = Some (GB P b true) -> grule bs (GRescaleNew a ps) (bs ++ [GB P (rescaled b) false])
  | gr_mulh a b : gfree (KMul a b) bs -> grule bs (GMulH a b) (bs ++ [gcall (KMul a b) bs])
  | gr_roth a k : gfree (KRot a k) bs -> (let q := k mod Z.of_nat (N / 2) in q = 0 \/ In q hrots) -> grule bs (GRotH a k) (bs ++ [gcall (KRot a k) bs]).
  Inductive grules : list gb -> list ginstr -> list gb -> Prop :=
  | grules_nil bs : grules bs nil bs
  | grules_cons bs i bs1 prog bs' : grule bs i bs1 -> grules bs1 prog bs' -> grules bs (i :: prog) bs'.
End Rule.

(** *** the rule dominates the bounds of C61 *)
Section Frac.
  Open Scope R_scope.
  (** x represented by an integer within 1 of rnd (qf x), at a scale sc that is the float product of s and qf *)
  Lemma frac_repr (s qf sc x S : RR) : 1024 <= S -> 99 / 100 * S <= s <= 101 / 100 * S -> 98 / 100 * S <= qf -> (1 - 2 * u) * (s * qf) <= sc <= (1 + 2 * u) * (s * qf) ->
    0 <= Rabs (rnd (qf * x) * s / sc - x) + s / sc <= 4 * u * Rabs x + 3 / S.
  Proof.
    intros HS Hs Hq Hc. pose proof u_small as U. pose proof (rnd_err (qf * x)) as E. pose proof eta_small as ES. assert (EP : 0 < FloatProofs.eta) by (unfold FloatProofs.eta; apply bpow_gt_0).
    set (w := u) in *. set (et := FloatProofs.eta) in *. assert (SQ : 0 < s * qf) by (apply Rmult_lt_0_compat; lra). assert (W : w <= / 1000) by lra.
    assert (SC : 0 < sc) by nra.
    set (g := s * qf / sc). assert (GE : g * sc = s * qf) by (unfold g; field; lra).
    assert (G1 : 1 - 2 * w <= g). { apply Rmult_le_reg_r with sc; [exact SC|]. rewrite GE. apply Rle_trans with ((1 - 2 * w) * ((1 + 2 * w) * (s * qf))); [apply Rmult_le_compat_l; lra|]. assert (0 <= w * w) by nra. nra. }
    assert (G2 : g <= 1 + 201 / 100 * w). { apply Rmult_le_reg_r with sc; [exact SC|]. rewrite GE. apply Rle_trans with ((1 + 201 / 100 * w) * ((1 - 2 * w) * (s * qf))); [|apply Rmult_le_compat_l; lra].
      assert (1 <= (1 + 201 / 100 * w) * (1 - 2 * w)) by (assert (0 <= w * w <= / 1000 * w) by (split; [nra|apply Rmult_le_compat_r; lra]); lra). rewrite <- Rmult_assoc. rewrite <- (Rmult_1_l (s * qf)) at 1. apply Rmult_le_compat_r; lra. }
    set (h := s / sc). assert (HG : h = g / qf) by (unfold h, g; field; lra).
    assert (H1 : 0 < h <= 11 / 10 / S). { rewrite HG. split; [apply Rdiv_lt_0_compat; lra|]. unfold Rdiv. apply Rle_trans with ((1 + 201 / 100 * w) * / (98 / 100 * S)).
      - apply Rmult_le_compat; [lra|left; apply Rinv_0_lt_compat; lra|exact G2|apply Rinv_le_contravar; lra].
      - rewrite Rinv_mult. rewrite <- Rmult_assoc. apply Rmult_le_compat_r; [left; apply Rinv_0_lt_compat; lra|lra]. }
    assert (HS' : 0 < / S <= 1) by (split; [apply Rinv_0_lt_compat; lra|rewrite <- Rinv_1; apply Rinv_le_contravar; lra]).
    split; [pose proof (Rabs_pos (rnd (qf * x) * s / sc - x)); lra|].
    replace (rnd (qf * x) * s / sc - x) with ((rnd (qf * x) - qf * x) * h + x * (g - 1)) by (unfold h, g; field; lra).
    eapply Rle_trans; [apply Rplus_le_compat_r; eapply Rle_trans; [apply Rabs_triang|]; rewrite !Rabs_mult, (Rabs_right h) by lra; apply Rplus_le_compat; [apply Rmult_le_compat_r; [lra|exact E]|apply Rmult_le_compat_l; [apply Rabs_pos|]; apply (Rabs_le _ (201 / 100 * w)); lra]|].
    rewrite Rabs_mult, (Rabs_right qf) by lra. pose proof (Rabs_pos x) as X0. set (ax := Rabs x) in *. clearbody ax.
    assert (QH : qf * h = g) by (rewrite HG; field; lra).
    replace ((w * (qf * ax) + et) * h) with (w * ax * (qf * h) + et * h) by ring. rewrite QH.
    assert (T1 : w * ax * g <= w * ax * (101 / 100)) by (apply Rmult_le_compat_l; [apply Rmult_le_pos; lra|lra]).
    assert (T2 : et * h <= 1 * h) by (apply Rmult_le_compat_r; lra).
    assert (T3 : 0 <= w * ax) by (apply Rmult_le_pos; lra). unfold Rdiv in *. lra.
  Qed.
  (** the scale after Rescale divides the modulus out again *)
  Lemma back_step (A w v z d e t : RR) : 0 <= d <= / 1024 -> 0 <= t <= / 1024 -> 7 / 4 * t <= e <= / 1024 -> Rabs (A - 1) <= d -> 1 - t / 2 <= w <= 1 + t / 2 -> 1 - t <= v <= 1 + t -> 0 < z -> v * z = A * w -> Rabs (z - 1) <= 2 * d + e.
  Proof.
    intros D T E HA W V Z EQ. apply Rabs_le_inv in HA. assert (X1 : (1 - d) * (1 - t / 2) <= A * w) by (apply Rmult_le_compat; lra). assert (X2 : A * w <= (1 + d) * (1 + t / 2)) by (apply Rmult_le_compat; lra).
    assert (Y1 : (1 - t) * z <= v * z) by (apply Rmult_le_compat_r; lra). assert (Y2 : v * z <= (1 + t) * z) by (apply Rmult_le_compat_r; lra).
    assert (TD : 0 <= d * t <= / 1024 * t) by (split; [apply Rmult_le_pos; lra|apply Rmult_le_compat_r; lra]). assert (TE : 0 <= e * t <= / 1024 * t) by (split; [apply Rmult_le_pos; lra|apply Rmult_le_compat_r; lra]).
    apply Rabs_le. split.
    - assert (Q : (1 + t) * (1 - 2 * d - e) <= (1 + t) * z) by nra. apply Rmult_le_reg_l in Q; lra.
    - assert (Q : (1 - t) * z <= (1 - t) * (1 + 2 * d + e)) by nra. apply Rmult_le_reg_l in Q; lra.
  Qed.
End Frac.

Section DominateFull.
  Context {N : nat} (pp : rparams) (WF : wfp N pp) (ps : f64) (crs : crsT N) (B T : Z) (HB : 0 <= B) (HT : 0 <= T) (K : nat) (P : list string) (HP : (length P <= K)%nat).
  Notation L := (maxLevel pp). Notation half := (f_div ps (f_of_int 2)).
  Variables (S eta e1 cA cR cM cD cX : RR) (MN : Z).
  Hypothesis HS : B2R ps = S /\ is_finite ps = true /\ (1024 <= S <= IZR (2 ^ 62))%R.
  Hypothesis HH : is_finite half = true /\ B2R half = (S / 2)%R.
  Hypothesis HQ : forall j, (1 <= j <= L)%nat -> (Rabs (IZR (mq (Qi pp j)) / S - 1) <= eta)%R.
  Hypothesis HQ0 : (99 / 100 * S <= IZR (mq (Qi pp 0)))%R.
  Notation dr l := (IZR (2 ^ Z.of_nat (L - l) - 1) * e1)%R.
  Hypothesis Heta : (0 <= eta <= / 2048)%R.
  Hypothesis He1 : (0 <= e1 /\ dr 0%nat <= / 1024 /\ dr 0%nat * dr 0%nat + 101 / 100 * (eta + / IZR (2 ^ 48)) <= e1 <= / 1024)%R.
  Hypothesis HcA : (3 * e1 <= cA)%R.
  Hypothesis HcD : (/ IZR (2 ^ 48) <= cD)%R.
  Hypothesis HcX : (3 <= cX * S)%R.
  Hypothesis HcR : forall l, (l <= L)%nat -> (INR N * IZR (Z.log2_up (Z.of_nat N) * (Z.of_nat K * switch_noise N pp l (dig_bound pp l) B T)) <= cR * (99 / 100 * S))%R.
  Hypothesis HMN : forall l0 l1, (l0 <= L)%nat -> (l1 <= L)%nat -> mul_noise N pp (Nat.min l0 l1) K K (dig_bound pp l0) (dig_bound pp l1) B T <= MN.
  Hypothesis HcM : (INR N * (2 * IZR MN + 101 / 100 * S * IZR (1 + Z.of_nat K * (Z.of_nat N * T))) <= 2 * (98 / 100) * (S * S) * cM)%R.
  Notation krel := (krel pp P S e1).
  Notation fq l := (f_of_int (mq (Qi pp l))).
  Lemma cl x l : (Rabs (x / S - 1) <= dr l)%R -> (99 / 100 * S <= x <= 101 / 100 * S)%R. Proof. exact (close pp ps K P HP S eta e1 HS He1 x l). Qed.
  Lemma qc j : (1 <= j <= L)%nat -> (99 / 100 * S <= IZR (mq (Qi pp j)) <= 101 / 100 * S)%R. Proof. exact (qclose pp ps S eta HS HQ Heta j). Qed.
  Lemma dsm l : (0 <= dr l <= / 1024)%R. Proof. exact (dr_small pp K P HP eta e1 He1 l). Qed.
  Lemma kcl t b l : krel t b -> (l <= klev t)%nat -> (Rabs (B2R (ksc t) / S - 1) <= dr l)%R. Proof. exact (krel_close pp K P HP S eta e1 He1 t b l). Qed.
  Lemma LQ j : (j <= L)%nat -> (j < length (Qm pp))%nat. Proof. pose proof (wf_Qpos _ _ WF). unfold maxLevel. lia. Qed.
  Lemma QZ j : (j <= L)%nat -> 0 < mq (Qi pp j) < 2 ^ 64. Proof. intros Hj. destruct (okQ pp WF j (LQ j Hj)) as [_ [_ QB]]. unfold W in QB. lia. Qed.
  (** the float of a modulus *)
  Lemma fq_ok l : (1 <= l <= L)%nat -> is_finite (fq l) = true /\ ((1 - 2 * u) * IZR (mq (Qi pp l)) <= B2R (fq l) <= (1 + 2 * u) * IZR (mq (Qi pp l)))%R /\ (98 / 100 * S <= B2R (fq l) <= 102 / 100 * S)%R.
  Proof.
    intros Hl. pose proof (QZ l ltac:(lia)) as Q. pose proof (qc l Hl) as C. destruct HS as (_ & _ & [S1 _]). destruct (f_of_int_ok (mq (Qi pp l))) as [Q1 Q2]; [lia|]. pose proof u_small as U.
    assert (X := rel_mul (IZR (mq (Qi pp l))) (rnd (IZR (mq (Qi pp l)))) ltac:(lra) (rnd_rel (IZR (mq (Qi pp l))) ltac:(lra))). rewrite <- Q1 in X. split; [exact Q2|]. split; [exact X|]. set (q := IZR (mq (Qi pp l))) in *. set (w := u) in *. assert (0 <= w * q <= / 1000 * q)%R by (split; [apply Rmult_le_pos; lra|apply Rmult_le_compat_r; lra]). lra.
  Qed.
  Lemma big_ok x y : (0 <= x <= 2 * S)%R -> (0 <= y <= 2 * S)%R -> (x * y <= IZR (2 ^ 126))%R.
  Proof.
    intros X Y. destruct HS as (_ & _ & [_ S2]). apply Rle_trans with (IZR (2 ^ 63) * IZR (2 ^ 63))%R; [|rewrite <- mult_IZR; apply IZR_le; vm_compute; discriminate].
    assert (Z : (2 * IZR (2 ^ 62) <= IZR (2 ^ 63))%R) by (rewrite <- (mult_IZR 2); apply IZR_le; vm_compute; discriminate). apply Rmult_le_compat; lra.
  Qed.
  (** a scale s multiplied by the modulus of level l *)
  Lemma dscale s l : (1 <= l <= L)%nat -> fpos s -> (Rabs (B2R s / S - 1) <= dr l)%R -> fpos (f_mul s (fq l)) /\ ((1 - 2 * u) * (B2R s * B2R (fq l)) <= B2R (f_mul s (fq l)) <= (1 + 2 * u) * (B2R s * B2R (fq l)))%R.
  Proof.
    intros Hl [Fs Ps] Hs. destruct (fq_ok l Hl) as (F & _ & C). pose proof (cl _ _ Hs) as Cs. destruct HS as (_ & _ & [S1 _]). pose proof u_small as U.
    assert (PR : (1 <= B2R s * B2R (fq l))%R) by (apply Rle_trans with (1 * 1)%R; [lra|apply Rmult_le_compat; lra]).
    pose proof (big_ok (B2R s) (B2R (fq l)) ltac:(lra) ltac:(lra)) as BO.
    destruct (f_mul_ok s (fq l) Fs F) as [M1 M2]. { rewrite Rabs_right by lra. eapply Rle_trans; [exact BO|]. unfold big. apply IZR_le. vm_compute. discriminate. }
    set (x := (B2R s * B2R (fq l))%R) in *. assert (X := rel_mul x (rnd x) ltac:(lra) (rnd_rel x ltac:(lra))). rewrite <- M1 in X. split; [|exact X]. split; [exact M2|]. eapply Rlt_le_trans; [|apply X]. apply Rmult_lt_0_compat; lra.
  Qed.
  (** one division undoes it *)
  Lemma dback s l : (1 <= l <= L)%nat -> fpos s -> (Rabs (B2R s / S - 1) <= dr l)%R -> let sc := f_mul s (fq l) in let r := rscale pp l sc 1 in let D := prodl (dropped pp 1 l) in
    D = mq (Qi pp l) /\ divisions pp l sc half 1 /\ fpos r /\ (Rabs (B2R r / S - 1) <= dr (l - 1))%R /\ (Rabs (B2R sc / (IZR D * B2R r) - 1) <= cD)%R.
  Proof.
    intros HL Fs Hs sc r D. pose proof (cl _ _ Hs) as Ca. destruct (fq_ok l HL) as (Fb & Rb & Cb). pose proof (qc l HL) as Cq. destruct (dscale s l HL Fs Hs) as [FS RS]. fold sc in FS, RS. destruct HS as (S0 & S1 & S2). destruct HH as (H1 & H2). destruct Fs as [Fa Pa].
    assert (ED : D = mq (Qi pp l)) by (unfold D, dropped; cbn [seq map]; unfold prodl; cbn [fold_right]; rewrite Nat.sub_0_r; ring).
    assert (CQ' : (99 / 100 * S <= IZR (mq (Qi pp (l - 1))))%R).
    { destruct (Nat.eq_dec l 1) as [->|NE]; [exact HQ0|]. apply (qc (l - 1) ltac:(lia)). }
    assert (Cb' : (99 / 100 * S <= B2R (fq l) <= 101 / 100 * S)%R).
    { specialize (HQ l HL). apply Rabs_le_inv in HQ. set (q := IZR (mq (Qi pp l))) in *. assert (E : (q / S * S = q)%R) by (field; lra). set (y := (q / S)%R) in *. pose proof u_small as U. set (w := u) in *. set (f := B2R (fq l)) in *. clearbody f y. assert (QY : (999 / 1000 * S <= q <= 1001 / 1000 * S)%R) by (rewrite <- E; split; apply Rmult_le_compat_r; lra).
      assert (0 <= w * q <= / 10000 * q)%R by (split; [apply Rmult_le_pos; lra|apply Rmult_le_compat_r; lra]). lra. }
    destruct (one_division s (fq l) S (mq (Qi pp l)) (mq (Qi pp (l - 1))) Fa Fb S2 Ca Cb' Cq CQ' (QZ l ltac:(lia)) (QZ (l - 1)%nat ltac:(lia))) as (O1 & O2 & O3 & O4).
    assert (ER : r = f_div sc (fq l)) by (unfold r; cbn [rscale]; rewrite Nat.sub_0_r; reflexivity).
    assert (DV : divisions pp l sc half 1).
    { split; [lia|]. split.
      - intros i Hi. assert (i = 0%nat) by lia. subst i. fold r. rewrite ER. unfold f_ge. apply (f_le_ok half _ H1 O1). lra.
      - change (rscale pp l sc 2) with (f_div r (fq (l - 1))). rewrite ER. unfold f_ge. destruct (f_le half _) eqn:E; [|reflexivity]. apply (f_le_ok half _ H1 O3) in E. exfalso. unfold sc in E. lra. }
    assert (AB : (B2R s * B2R (fq l) <= IZR (2 ^ 900))%R) by (eapply Rle_trans; [apply big_ok; lra|apply IZR_le; vm_compute; discriminate]).
    destruct (C48_scale_drift N pp l s (fq l) half 1 WF (LQ l ltac:(lia)) Fa Fb H1) as (D1 & D2 & D3); trivial; try lra.
    fold sc D r in D1, D2, D3.
    assert (T0 : (/ IZR (2 ^ 48) = 16 * (2 * u))%R) by (rewrite u_val; change (2 ^ 48) with 281474976710656; change (2 ^ 53) with 9007199254740992; lra).
    assert (D4 : (Rabs (B2R s * B2R (fq l) / (IZR D * B2R r) - 1) <= 9 * (2 * u))%R).
    { eapply Rle_trans; [exact D3|]. rewrite u_val. cbn [pow]. change (2 ^ 50) with 1125899906842624. change (2 ^ 53) with 9007199254740992. lra. }
    split; [exact ED|]. split; [exact DV|]. split; [exact D2|]. destruct D2 as [_ RP]. pose proof u_small as U. set (w := u) in *. rewrite ED in *. pose proof (QZ l ltac:(lia)) as QZ'. assert (QP : (0 < IZR (mq (Qi pp l)))%R) by (apply IZR_lt; lia). set (q := IZR (mq (Qi pp l))) in *.
    apply Rabs_le_inv in D4. set (v := (B2R s * B2R (fq l) / (q * B2R r))%R) in *.
    assert (QR : (0 < q * B2R r)%R) by (apply Rmult_lt_0_compat; lra). split.
    - rewrite (dr_step pp K P HP e1 l HL). pose proof (dsm l) as DS. destruct He1 as (E0 & _ & E3 & E4). assert (D00 : (0 <= dr 0%nat * dr 0%nat)%R) by (pose proof (dsm 0); apply Rmult_le_pos; lra).
      apply (back_step (B2R s / S) (B2R (fq l) / q) v (B2R r / S) (dr l) e1 (9 * (2 * w))); trivial; try lra.
      + assert (EW : (B2R (fq l) / q * q = B2R (fq l))%R) by (field; lra). set (y := (B2R (fq l) / q)%R) in *. split; apply Rmult_le_reg_r with q; try exact QP; rewrite EW; [eapply Rle_trans; [|apply Rb]|eapply Rle_trans; [apply Rb|]]; apply Rmult_le_compat_r; lra.
      + apply Rdiv_lt_0_compat; lra.
      + unfold v. field. lra.
    - set (sc' := B2R sc) in *. set (ab := (B2R s * B2R (fq l))%R) in *. eapply Rle_trans; [|exact HcD]. rewrite T0. assert (EV : (v * (q * B2R r) = ab)%R) by (unfold v; field; lra).
      assert (EZ : (sc' / (q * B2R r) * (q * B2R r) = sc')%R) by (field; lra). set (z := (sc' / (q * B2R r))%R) in *. set (qr := (q * B2R r)%R) in *. clearbody z v qr.
      rewrite <- EV, <- EZ in RS. destruct RS as [RS1 RS2]. rewrite <- Rmult_assoc in RS1, RS2. apply Rmult_le_reg_r in RS1; [|exact QR]. apply Rmult_le_reg_r in RS2; [|exact QR].
      apply Rabs_le. assert (W1 : (w <= / 1000)%R) by lra. assert (WW : (0 <= w * w <= / 1000 * w)%R) by (split; [apply Rmult_le_pos; lra|apply Rmult_le_compat_r; lra]).
      assert (V1 : ((1 - 2 * w) * (1 - 18 * w) <= (1 - 2 * w) * v)%R) by (apply Rmult_le_compat_l; lra). assert (V2 : ((1 + 2 * w) * v <= (1 + 2 * w) * (1 + 18 * w))%R) by (apply Rmult_le_compat_l; lra). lra.
  Qed.

  (** a register whose scale is multiplied by the modulus of its level *)
  Definition drel (t : kinfo) (b : kb) : Prop :=
    klev t = bl b /\ (1 <= klev t <= L)%nat /\ kmu t = bmu b /\ (0 <= kmu t)%R /\ (0 <= keps t <= berr b)%R /\ NoDup (kids t) /\ incl (kids t) P /\
    exists s, fpos s /\ (Rabs (B2R s / S - 1) <= dr (klev t))%R /\ ksc t = f_mul s (fq (klev t)).
  Definition grel (t : kinfo) (b : gb) : Prop := (forall x, In x (kids t) <-> In x (gids b)) /\ if gdbl b then drel t (gk b) else krel t (gk b).

  Lemma cM_pos : (0 <= cM)%R.
  Proof.
    destruct HS as (_ & _ & [S1 _]). assert (IN0 : (0 <= INR N)%R) by apply pos_INR. assert (SS : (0 < S * S)%R) by (apply Rmult_lt_0_compat; lra).
    apply Rmult_le_reg_l with (2 * (98 / 100) * (S * S))%R; [lra|]. rewrite Rmult_0_r. eapply Rle_trans; [|exact HcM]. apply Rmult_le_pos; [exact IN0|]. assert (0 <= IZR MN)%R.
    { apply IZR_le. pose proof (HMN 0 0 ltac:(lia) ltac:(lia)) as X. pose proof (kmul_mono pp (Nat.min 0 0) K K K (dig_bound pp 0) (dig_bound pp 0) B T WF HB HT (kdig_nn pp 0) (kdig_nn pp 0) (le_n K) (le_n K)). lia. }
    assert (0 <= IZR (1 + Z.of_nat K * (Z.of_nat N * T)))%R by (apply IZR_le; assert (0 <= Z.of_nat K * (Z.of_nat N * T)) by (repeat apply Z.mul_nonneg_nonneg; lia); lia).
    assert (0 <= S * IZR (1 + Z.of_nat K * (Z.of_nat N * T)))%R by (apply Rmult_le_pos; lra). lra.
  Qed.
  Lemma round_le (D : Z) n (r : RR) : 1 <= D -> (n <= K)%nat -> (99 / 100 * S <= r)%R -> 0 <= round2 N T D n -> (0 <= INR N * IZR (round2 N T D n) / (2 * IZR D * r) <= cM)%R.
  Proof.
    intros HD Hn Hr H0. destruct HS as (_ & _ & [S1 _]). assert (IN0 : (0 <= INR N)%R) by apply pos_INR. assert (ID : (1 <= IZR D)%R) by (apply IZR_le; exact HD). assert (SS : (0 < S * S)%R) by (apply Rmult_lt_0_compat; lra).
    assert (RN : (0 <= IZR (round2 N T D n))%R) by (apply IZR_le; exact H0). assert (DP : (0 < 2 * IZR D * r)%R) by (apply Rmult_lt_0_compat; lra).
    set (C := IZR (1 + Z.of_nat K * (Z.of_nat N * T))) in *. assert (NT : 0 <= Z.of_nat N * T) by (apply Z.mul_nonneg_nonneg; lia).
    assert (C0 : (1 <= C)%R) by (apply IZR_le; assert (0 <= Z.of_nat K * (Z.of_nat N * T)) by (apply Z.mul_nonneg_nonneg; lia); lia).
    split; [apply Rmult_le_pos; [apply Rmult_le_pos; lra|left; apply Rinv_0_lt_compat; exact DP]|].
    apply Rmult_le_reg_r with (2 * IZR D * r)%R; [exact DP|]. unfold Rdiv. rewrite Rmult_assoc, Rinv_l, Rmult_1_r by lra.
    assert (RC : (IZR (round2 N T D n) <= IZR D * C)%R).
    { unfold C, round2. rewrite <- mult_IZR. apply IZR_le. apply Z.mul_le_mono_nonneg; [lia|lia| |]; assert (0 <= Z.of_nat n * (Z.of_nat N * T) <= Z.of_nat K * (Z.of_nat N * T)) by (split; [apply Z.mul_nonneg_nonneg; lia|apply Z.mul_le_mono_nonneg_r; lia]); lia. }
    assert (MN0 : (0 <= IZR MN)%R).
    { apply IZR_le. pose proof (HMN 0 0 ltac:(lia) ltac:(lia)) as X. pose proof (kmul_mono pp (Nat.min 0 0) K K K (dig_bound pp 0) (dig_bound pp 0) B T WF HB HT (kdig_nn pp 0) (kdig_nn pp 0) (le_n K) (le_n K)). lia. }
    pose proof cM_pos as CM.
    (* N (1.01 S C) <= 1.96 S S cM, hence N C <= 1.96 / 1.01 S cM <= 1.98 S cM *)
    assert (NC : (INR N * C <= 2 * (99 / 100 * S) * cM)%R).
    { apply Rmult_le_reg_l with (101 / 100 * S)%R; [lra|]. apply Rle_trans with (INR N * (2 * IZR MN + 101 / 100 * S * C))%R; [assert (0 <= INR N * IZR MN)%R by (apply Rmult_le_pos; lra); lra|]. eapply Rle_trans; [exact HcM|]. assert (0 <= S * S * cM)%R by (apply Rmult_le_pos; lra). lra. }
    apply Rle_trans with (INR N * (IZR D * C))%R; [apply Rmult_le_compat_l; [exact IN0|exact RC]|].
    replace (INR N * (IZR D * C))%R with (IZR D * (INR N * C))%R by ring. replace (cM * (2 * IZR D * r))%R with (IZR D * (2 * r * cM))%R by ring. apply Rmult_le_compat_l; [lra|].
    eapply Rle_trans; [exact NC|]. apply Rmult_le_compat_r; [exact CM|lra].
  Qed.
  Lemma round_nn D n : 1 <= D -> 0 <= round2 N T D n.
  Proof. clear -HT. intros H. unfold round2. assert (0 <= Z.of_nat n * (Z.of_nat N * T)) by (repeat apply Z.mul_nonneg_nonneg; lia). apply Z.mul_nonneg_nonneg; lia. Qed.

  Lemma rescale_rel t b : drel t b -> divisions pp (klev t) (ksc t) half 1 /\ fpos (rscale pp (klev t) (ksc t) 1) /\ krel (div_info N pp T t 1) (rescaled cM cD b).
  Proof.
    intros (A1 & A2 & A3 & A4 & A5 & A6 & A7 & s & Fs & Hs & Es). destruct (dback s (klev t) A2 Fs Hs) as (ED & DV & FR & DR & DD). rewrite Es. split; [exact DV|]. split; [exact FR|].
    unfold div_info, rescaled, CkksBudget.krel. cbn [klev ksc kids kmu keps bl bmu berr]. rewrite Es. set (r := rscale pp (klev t) (f_mul s (fq (klev t))) 1) in *. set (D := prodl (dropped pp 1 (klev t))) in *.
    split; [lia|]. split; [lia|]. split; [exact A3|]. split; [exact A4|]. split; [|split; [exact FR|split; [exact DR|split; assumption]]].
    pose proof (cl _ _ DR) as Cr. pose proof (QZ (klev t) ltac:(lia)) as QQ. assert (D1 : 1 <= D) by lia. pose proof (NoDup_incl_length A6 A7) as LK.
    pose proof (round_le D (length (kids t)) (B2R r) D1 ltac:(lia) ltac:(lra) (round_nn D _ D1)) as RL. rewrite <- A3.
    assert (X := Rabs_pos (B2R (f_mul s (fq (klev t))) / (IZR D * B2R r) - 1)). set (v := Rabs (B2R (f_mul s (fq (klev t))) / (IZR D * B2R r) - 1)) in *.
    assert (0 <= v * (kmu t + keps t) <= cD * (kmu t + berr b))%R by (split; [apply Rmult_le_pos; lra|apply Rmult_le_compat; lra]). lra.
  Qed.
  (** Rescale of a register of the usual scale: nothing to divide by *)
  Lemma rescale_none_rel t b : (1 <= klev t)%nat -> krel t b -> divisions pp (klev t) (ksc t) half 0 /\ fpos (rscale pp (klev t) (ksc t) 0) /\ krel (div_info N pp T t 0) b.
  Proof.
    intros HL KR. pose proof (kcl _ _ (klev t) KR ltac:(lia)) as Ct. pose proof (cl _ _ Ct) as Cs. destruct KR as (A1 & A2 & A3 & A4 & A5 & A6 & A7 & A8 & A9). destruct (fq_ok (klev t) ltac:(lia)) as (Fq & _ & Cq). destruct HS as (S0 & S1 & S2). destruct HH as (H1 & H2).
    assert (D0 : (0 <= B2R (ksc t) / B2R (fq (klev t)) <= 2)%R).
    { assert (E : (B2R (ksc t) / B2R (fq (klev t)) * B2R (fq (klev t)) = B2R (ksc t))%R) by (field; lra). set (d := (B2R (ksc t) / B2R (fq (klev t)))%R) in *. split; apply Rmult_le_reg_r with (B2R (fq (klev t))); try lra; rewrite E; lra. }
    destruct (f_div_ok' (ksc t) (fq (klev t)) (proj1 A6)) as [V1 V2]; [lra|rewrite Rabs_right by lra; apply Rle_trans with 2%R; [lra|unfold big; apply IZR_le; vm_compute; discriminate]|].
    assert (RV : (B2R (f_div (ksc t) (fq (klev t))) <= 2)%R) by (rewrite V1, <- (rnd_fmt 2) by (apply fmt_int; lia); apply rnd_le; lra).
    split; [|split; [exact A6|]].
    - split; [lia|]. split; [intros i Hi; lia|]. cbn [rscale]. rewrite Nat.sub_0_r. unfold f_ge. destruct (f_le half _) eqn:E; [|reflexivity]. apply (f_le_ok half _ H1 V2) in E. lra.
    - unfold div_info, CkksBudget.krel. cbn [klev ksc kids kmu keps bl bmu berr rscale]. change (prodl (dropped pp 0 (klev t))) with 1. rewrite Nat.sub_0_r. replace (round2 N T 1 (length (kids t))) with 0 by (unfold round2; lia).
      replace (B2R (ksc t) / (1 * B2R (ksc t)) - 1)%R with 0%R by (field; lra). rewrite Rabs_R0. unfold Rdiv. replace (keps t + 0 * (kmu t + keps t) + INR N * 0 * / (2 * 1 * B2R (ksc t)))%R with (keps t) by ring.
      split; [exact A1|]. split; [exact A2|]. split; [exact A3|]. split; [exact A4|]. split; [exact A5|]. split; [exact A6|]. split; [exact A7|]. split; assumption.
  Qed.
  Lemma int_rel t b l z : krel t b -> (l <= bl b)%nat -> krel (int_info t l z) (scaled l (IZR z) b).
  Proof.
    intros KR Hl. assert (E1 : klev t = bl b) by apply KR. pose proof (kcl _ _ l KR ltac:(lia)) as Ct. destruct KR as (A1 & A2 & A3 & A4 & A5 & A6 & A7 & A8 & A9). unfold int_info, scaled, CkksBudget.krel. cbn [klev ksc kids kmu keps bl bmu berr]. pose proof (Rabs_pos (IZR z)) as Z0.
    split; [reflexivity|]. split; [lia|]. split; [rewrite A3; reflexivity|]. split; [apply Rmult_le_pos; assumption|]. split; [split; [apply Rmult_le_pos; lra|apply Rmult_le_compat_l; lra]|]. split; [exact A6|]. split; [exact Ct|]. split; assumption.
  Qed.
  Lemma frac_rel t b l x KM : krel t b -> (1 <= l <= bl b)%nat -> fpos (f_mul (ksc t) (fq l)) /\ drel (frac_info pp t l x KM) (fraced cD cX l x b).
  Proof.
    intros KR Hl. assert (E1 : klev t = bl b) by apply KR. pose proof (kcl _ _ l KR ltac:(lia)) as Ct. pose proof (cl _ _ Ct) as Cs. destruct KR as (A1 & A2 & A3 & A4 & A5 & A6 & A7 & A8 & A9). destruct (dscale (ksc t) l ltac:(lia) A6 Ct) as [FS RS]. destruct (fq_ok l ltac:(lia)) as (Fq & _ & Cq).
    split; [exact FS|]. unfold frac_info, fraced, drel. cbn [klev ksc kids kmu keps bl bmu berr]. destruct HS as (S0 & S1 & S2). pose proof (frac_repr (B2R (ksc t)) (B2R (fq l)) (B2R (f_mul (ksc t) (fq l))) x S ltac:(lra) Cs ltac:(lra) RS) as FR.
    split; [reflexivity|]. split; [lia|]. split; [rewrite A3; reflexivity|]. pose proof (Rabs_pos x) as X0. split; [apply Rmult_le_pos; assumption|]. split; [|split; [exact A8|split; [exact A9|exists (ksc t); split; [exact A6|split; [exact Ct|reflexivity]]]]].
    set (v := (Rabs (rnd (B2R (fq l) * x) * B2R (ksc t) / B2R (f_mul (ksc t) (fq l)) - x) + B2R (ksc t) / B2R (f_mul (ksc t) (fq l)))%R) in *.
    assert (T0 : (4 * u <= cD)%R) by (eapply Rle_trans; [|exact HcD]; rewrite u_val; change (2 ^ 48) with 281474976710656; change (2 ^ 53) with 9007199254740992; lra).
    assert (T1 : (3 / S <= cX)%R) by (apply Rmult_le_reg_r with S; [lra|]; unfold Rdiv; rewrite Rmult_assoc, Rinv_l, Rmult_1_r by lra; exact HcX).
    assert (T2 : (4 * u * Rabs x <= cD * Rabs x)%R) by (apply Rmult_le_compat_r; lra).
    assert (V : (0 <= v * (kmu t + keps t) <= (cD * Rabs x + cX) * (kmu t + berr b))%R) by (split; [apply Rmult_le_pos; lra|apply Rmult_le_compat; lra]).
    assert (E : (0 <= Rabs x * keps t <= Rabs x * berr b)%R) by (split; [apply Rmult_le_pos; lra|apply Rmult_le_compat_l; lra]). rewrite <- A3. lra.
  Qed.

  Variables (pis : list kpinfo) (pb : list (RR * RR)) (hrots : list Z).
  Hypothesis HPT : length pis = length pb /\ forall p q, nth_error pis p = Some q -> psc q = ps /\ (0 <= pmu q)%R /\ (0 <= peps q)%R /\ nth p pb (0, 0)%R = (pmu q, peps q).
  Hypothesis HHR : forall q, In q hrots -> mget Z.eq_dec crs q <> None.
  Definition ginv (ts : list kinfo) (bs : list gb) : Prop := length ts = length bs /\ forall a t b, nth_error ts a = Some t -> nth_error bs a = Some b -> grel t b.
  Notation rule := (grule N ps L cA cR cM cD cX pb hrots).

  Lemma ginv_get ts bs a b : ginv ts bs -> nth_error bs a = Some b -> exists t, nth_error ts a = Some t /\ grel t b.
  Proof.
    intros [HL HI] E. destruct (nth_error ts a) as [t|] eqn:Et; [exists t; split; [reflexivity|eapply HI; eassumption]|]. apply nth_error_None in Et. assert (a < length bs)%nat by (apply nth_error_Some; congruence). lia.
  Qed.
  Lemma ginv_app ts bs t b : ginv ts bs -> grel t b -> ginv (ts ++ [t]) (bs ++ [b]).
  Proof.
    intros [HL HI] G. split; [rewrite !app_length; cbn; lia|]. intros a t' b' Ht Hb. destruct (Nat.lt_ge_cases a (length ts)) as [Hl|Hl].
    - rewrite nth_error_app1 in Ht by lia. rewrite nth_error_app1 in Hb by lia. eapply HI; eassumption.
    - rewrite nth_error_app2 in Ht by lia. rewrite nth_error_app2 in Hb by lia. rewrite HL in Ht. destruct (a - length bs)%nat as [|y]; [|destruct y; discriminate Ht]. injection Ht as <-. injection Hb as <-. exact G.
  Qed.
  Lemma ginv_upd ts bs r t b : ginv ts bs -> grel t b -> ginv (upd ts r t) (upd bs r b).
  Proof.
    intros [HL HI] G. split; [rewrite !upd_len; exact HL|]. intros a t' b' Ht Hb. rewrite nth_error_upd in Ht. rewrite nth_error_upd in Hb. destruct (a =? r)%nat; [|eapply HI; eassumption].
    destruct (nth_error ts r); [|discriminate Ht]. destruct (nth_error bs r); [|discriminate Hb]. injection Ht as <-. injection Hb as <-. exact G.
  Qed.
  Lemma call_rel i ts bs : ginv ts bs -> gfree L pb i bs -> exists t, kstep N pp ps crs B T pis ts i t /\ grel t (gcall L cA cR cM cD pb i bs).
  Proof.
    intros GI [FR OK]. assert (LN : length ts = length (map gk bs)) by (rewrite map_length; apply GI).
    assert (NT : forall a, nth a (map gk bs) (KB 0 0 0) = gk (nth a bs gb0)) by (intros a; apply (map_nth gk bs gb0)).
    assert (GT : forall a t, In a (kuses i) -> nth_error ts a = Some t -> exists b, nth_error bs a = Some b /\ nth a bs gb0 = b /\ (forall x, In x (kids t) <-> In x (gids b)) /\ krel t (gk b)).
    { intros a t Hu Ht. destruct (nth_error bs a) as [b|] eqn:E; [|apply nth_error_None in E; assert (a < length ts)%nat by (apply nth_error_Some; congruence); rewrite map_length in LN; lia].
      pose proof (nth_error_nth bs a gb0 E) as EN. destruct (proj2 GI a t b Ht E) as [I1 I2]. assert (FD := FR a Hu). rewrite EN in FD. rewrite FD in I2. exists b. split; [reflexivity|]. split; [exact EN|]. split; assumption. }
    destruct (step_rel' pp WF ps crs B T HB HT K P HP S eta e1 cA cR cM cD MN HS HH HQ HQ0 Heta He1 HcA HcD HcR HMN HcM pis pb HPT i ts (map gk bs) LN) as (t & ST & KR); [|exact OK|].
    { intros a t Hu Ht. destruct (GT a t Hu Ht) as (b & _ & E2 & _ & E4). rewrite NT, E2. exact E4. }
    exists t. split; [exact ST|]. split; [|exact KR]. intros x. unfold gcall, gparts. cbn [gids].
    inversion ST; subst; cbn [kids sum_info prod_info noisy kuses In] in *; try unfold ids; rewrite ?nodup_In, ?in_app_iff;
    repeat match goal with H : nth_error ts ?a = Some ?t |- _ => let b := fresh "b" in let E2 := fresh "EE" in let E3 := fresh "EI" in
      destruct (GT a t ltac:(auto) H) as (b & _ & E2 & E3 & _); clear H; rewrite E2 end;
    repeat match goal with H : forall x, In x (kids ?t) <-> _ |- _ => rewrite (H x); clear H end; tauto.
  Qed.

  Lemma grule_rel i ts bs bs' : ginv ts bs -> rule bs i bs' -> exists ts', gstep N pp ps crs B T pis ts i ts' /\ ginv ts' bs'.
  Proof.
    intros GI RU. destruct HS as (S0 & S1 & S2). assert (PSP : f_le ps f_zero = false).
    { destruct (f_le ps f_zero) eqn:E; [|reflexivity]. apply (f_le_ok ps f_zero S1 eq_refl) in E. change (B2R f_zero) with 0%R in E. lra. }
    assert (SPT : forall t t' Pa Pb, (forall x, In x (kids t) <-> In x Pa) -> (forall x, In x (kids t') <-> In x Pb) -> same Pa Pb -> same_parties t t') by (intros t t' Pa Pb H1 H2 H3 x; rewrite H1, H2; apply H3).
    inversion RU; subst; clear RU.
    - destruct (call_rel i0 ts bs GI H) as (t & ST & G). exists (ts ++ [t]). split; [apply gstep_call; exact ST|]. apply ginv_app; assumption.
    - destruct (ginv_get _ _ _ _ GI H) as (t & Et & G). exists (ts ++ [t]). split; [apply gstep_copy with (1 := Et)|]. apply ginv_app; assumption.
    - destruct (ginv_get _ _ _ _ GI H) as (t & Et & G1 & G2). cbn [gids gk gdbl] in G1, G2. assert (E1 : klev t = bl b) by apply G2. pose proof (kcl _ _ (klev t - n) G2 ltac:(lia)) as Ct. eexists. split; [apply gstep_drop with (1 := Et); lia|]. apply ginv_upd; [exact GI|]. split; [exact G1|]. cbn [gdbl gk].
      destruct G2 as (A1 & A2 & A3 & A4 & A5 & A6 & A7 & A8 & A9). rewrite <- E1. unfold CkksBudget.krel. cbn [klev ksc kids kmu keps bl bmu berr]. split; [reflexivity|]. split; [lia|]. split; [exact A3|]. split; [exact A4|]. split; [exact A5|]. split; [exact A6|]. split; [exact Ct|]. split; assumption.
    - destruct (ginv_get _ _ _ _ GI H) as (t & Et & G1 & G2). destruct (ginv_get _ _ _ _ GI H0) as (t' & Et' & G1' & G2'). cbn [gids gk gdbl] in G1, G2, G1', G2'. assert (E1 : klev t = bl b) by apply G2. assert (E2 : klev t' = bl b') by (destruct d; apply G2').
      eexists. split; [apply (gstep_int N pp ps crs B T pis ts a k r t t' z Et Et'); trivial; [eapply SPT; eassumption|lia]|]. apply ginv_upd; [exact GI|]. split; [exact G1|]. cbn [gdbl gk]. rewrite E2. apply int_rel; assumption.
    - destruct (ginv_get _ _ _ _ GI H) as (t & Et & G1 & G2). destruct (ginv_get _ _ _ _ GI H0) as (t' & Et' & G1' & G2'). cbn [gids gk gdbl] in G1, G2, G1', G2'. assert (E1 : klev t = bl b) by apply G2. assert (E2 : klev t' = bl b') by (destruct d; apply G2').
      set (KM := up (Rabs (rnd (B2R (fq (klev t')) * B2R x)) + 1)). destruct (frac_rel t b (bl b') (B2R x) KM G2 H2) as [F1 F2].
      eexists. split; [apply (gstep_frac N pp ps crs B T pis ts a k r t t' x KM Et Et'); trivial; [eapply SPT; eassumption|lia|rewrite E2; exact F1|unfold KM; destruct (archimed (Rabs (rnd (B2R (fq (klev t')) * B2R x)) + 1)); lra]|].
      apply ginv_upd; [exact GI|]. split; [exact G1|]. cbn [gdbl gk]. rewrite E2. exact F2.
    - destruct (ginv_get _ _ _ _ GI H) as (t & Et & G1 & G2). rewrite H0 in G2. destruct (Nat.eq_dec (klev t) 0) as [E0|NE].
      + exists ts. split; [apply gstep_rescale_err with (1 := Et); right; exact E0|exact GI].
      + destruct (rescale_none_rel t (gk b) ltac:(lia) G2) as (R1 & R2 & R3). eexists. split; [apply (gstep_rescale N pp ps crs B T pis ts a ps 0 t Et); trivial; lia|].
        assert (X : ginv (upd ts a (div_info N pp T t 0)) (upd bs' a b)) by (apply ginv_upd; [exact GI|]; split; [exact G1|rewrite H0; exact R3]).
        replace (upd bs' a b) with bs' in X; [exact X|]. clear - H. revert a H. induction bs' as [|y l IH]; intros [|a] H; cbn in *; try discriminate H; [injection H as ->; reflexivity|]. f_equal. apply IH. exact H.
    - destruct (ginv_get _ _ _ _ GI H) as (t & Et & G1 & G2). cbn [gids gk gdbl] in G1, G2. destruct (rescale_rel t b G2) as (R1 & R2 & R3). assert (E1 : (1 <= klev t)%nat) by apply G2. eexists. split; [apply (gstep_rescale N pp ps crs B T pis ts a ps 1 t Et); trivial|].
      apply ginv_upd; [exact GI|]. split; [exact G1|exact R3].
    - destruct (ginv_get _ _ _ _ GI H0) as (t & Et & G1 & G2). destruct (ginv_get _ _ _ _ GI H1) as (t' & Et' & G1' & G2'). cbn [gids gk gdbl] in G1, G2, G1', G2'. destruct (rescale_rel t b G2) as (R1 & R2 & R3). assert (E1 : (1 <= klev t)%nat) by apply G2. assert (E3 : klev t = bl b) by apply G2. assert (E2 : klev t' = bl b') by (destruct d; apply G2').
      eexists. split; [apply (gstep_rescale_into N pp ps crs B T pis ts a ps r 1 t t' Et Et'); trivial; [eapply SPT; eassumption|lia|lia]|]. apply ginv_upd; [exact GI|]. split; [exact G1|exact R3].
    - destruct (ginv_get _ _ _ _ GI H) as (t & Et & G1 & G2). cbn [gids gk gdbl] in G1, G2. destruct (rescale_rel t b G2) as (R1 & R2 & R3). assert (E1 : (1 <= klev t)%nat) by apply G2. eexists. split; [apply (gstep_rescale_new N pp ps crs B T pis ts a ps 1 t Et); trivial; lia|].
      apply ginv_app; [exact GI|]. split; [exact G1|exact R3].
    - destruct (call_rel (KMul a b) ts bs GI H) as (t & ST & G). exists (ts ++ [t]). split; [apply gstep_mulh; exact ST|]. apply ginv_app; assumption.
    - destruct (call_rel (KRot a k) ts bs GI H) as (t & ST & G). exists (ts ++ [t]). split; [apply gstep_roth; [exact ST|]; cbn zeta in *; destruct H0 as [H0|H0]; [left; exact H0|right; apply HHR; exact H0]|]. apply ginv_app; assumption.
  Qed.
  Lemma grules_rel bs prog bs' : grules N ps L cA cR cM cD cX pb hrots bs prog bs' -> forall ts, ginv ts bs -> exists ts', gsteps N pp ps crs B T pis ts prog ts' /\ ginv ts' bs'.
  Proof.
    induction 1 as [bs|bs i bs1 prog bs' R1 R2 IH]; intros ts GI; [exists ts; split; [constructor|exact GI]|].
    destruct (grule_rel i ts bs bs1 GI R1) as (ts1 & S1 & G1). destruct (IH ts1 G1) as (ts' & S2 & G2). exists ts'. split; [econstructor; eassumption|exact G2].
  Qed.
End DominateFull.
