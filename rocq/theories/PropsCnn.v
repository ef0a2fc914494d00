(** C33: the layers of cnn/cnn.go compute the window sums they stand for, up to an explicit error. *)
From Flocq Require Import Core BinarySingleNaN.
From Coq Require Import Znumtheory Setoid Morphisms Reals Lra Ring_theory InitialRing.
From Verif Require Import Base IdSetModel IdSetSpec IdSetProofs KeySetModel NumTheory Negacyclic Ntt Word BasisExt BasisExtProofs Rows RlweModel KeyGenModel SchemeSpec ExtProd ExtProps Galois KeyGenProofs Instance CtModel CtSpec CtProofs EncDecProofs PropsEnc KeySwitchModel Digits KsLoops RotProofs MulProofs PropsKeySwitch IndexModel PropsIndex FloatModel CkksFloat CkksModel FloatProofs CkksFloatProofs CkksProofs CkksRescale PropsCkks PropsRescale PropsConst PropsMulRelin PropsCkksEx Slots PropsSlots PropsRotate CnnModel.
Open Scope Z_scope.

(** ** Specification *)
(** slot z of a plaintext polynomial, slots counted cyclically (N/2 of them) *)
Definition zslot {N} (m : R N) (z : Z) : Rdefinitions.R * Rdefinitions.R := ckks_slot m (Z.to_nat (z mod Z.of_nat (N / 2))).
(** finite sums of complex numbers *)
Definition csum (n : nat) (f : nat -> Rdefinitions.R * Rdefinitions.R) : Rdefinitions.R * Rdefinitions.R := ksum (0%R, 0%R) cadd n f.
Definition cscale (z : Z) (x : Rdefinitions.R * Rdefinitions.R) : Rdefinitions.R * Rdefinitions.R := cmul (IZR z, 0%R) x.

(** the parameters, the common reference string and the relinearisation keys of the parties [ids] are in order *)
Record ready {N} (pp : rparams) (crs : crsT N) (pscale : f64) (rs : rlkset N) (ids : list string) (s r : string -> R N) (B T : Z) : Prop := {
  rd_wf : wfp N pp;
  rd_small : small_ok pp B;
  rd_B : 0 <= B;
  rd_T : 0 <= T;
  rd_ids : NoDup ids;
  rd_crs : exists a u, mget Z.eq_dec crs 0 = Some a /\ mget Z.eq_dec crs (-1) = Some u /\ crs_ok pp a /\ crs_ok pp u;
  rd_relin : forall id, In id ids -> has_relin_key pp crs rs B T id (s id) (r id);
  rd_secret : forall id, In id ids -> bnd (s id) T;
  rd_scale : f_le pscale f_zero = false }.
(** every party of [ids] has the rotation keys RotateNew(k) needs; for the hoisted rotation the amount itself must be in the CRS *)
Definition rot_avail {N} (pp : rparams) (crs : crsT N) (rk : rotset N) (ids : list string) (s : string -> R N) (B T k : Z) : Prop :=
  let r := k mod Z.of_nat (N / 2) in
  forall i, r <> 0 -> used_index crs r i -> (exists a, mget Z.eq_dec crs i = Some a /\ crs_ok pp a) /\ forall id, In id ids -> has_rot_key pp crs rk i B T id (s id).
Definition hoist_avail {N} (crs : crsT N) (k : Z) : Prop := let r := k mod Z.of_nat (N / 2) in r = 0 \/ mget Z.eq_dec crs r <> None.

(** c is a well-formed ciphertext of the parties [ids] with the given level and scale, and decrypts to the integer polynomial m *)
Definition input {N} (pp : rparams) (ids : list string) (s : string -> R N) (c : ckct N) (level : nat) (sc : f64) (m : R N) : Prop :=
  wfct pp level false (cv c) /\ csc c = sc /\ incl (parties (cv c)) ids /\ decrypts pp s (cv c) level m.
(** c decrypts to (m + e) / D with |e| <= Bd *)
Definition result {N} (pp : rparams) (ids : list string) (s : string -> R N) (c : ckct N) (level : nat) (sc : f64) (D : Z) (m : R N) (Bd : Z) : Prop :=
  wfct pp level false (cv c) /\ csc c = sc /\ incl (parties (cv c)) ids /\ exists phi, decrypts pp s (cv c) level phi /\ bnd (sub (smul D phi) m) Bd.
(** scales an addition accepts without changing either operand *)
Definition close (a b : f64) : Prop :=
  is_finite a = true /\ is_finite b = true /\ (0 < B2R a)%R /\ (0 < B2R b)%R /\ (B2R b <= 3 / 2 * B2R a)%R /\ (B2R a <= 3 / 2 * B2R b)%R.

(** error of one rotation by k at a level; of one product before rescaling; of one rescaling by q: n = number of parties *)
Definition rotE {N} (pp : rparams) (crs : crsT N) (n : nat) (B T : Z) (level : nat) (k : Z) : Z :=
  rot_count crs (k mod Z.of_nat (N / 2)) * (Z.of_nat n * switch_noise N pp level (dig_bound pp level) B T).
Definition mulE (N : nat) (pp : rparams) (n : nat) (B T : Z) (l0 l1 : nat) : Z := mul_noise N pp (Nat.min l0 l1) n n (dig_bound pp l0) (dig_bound pp l1) B T.
Definition rescE (N n : nat) (T q : Z) : Z := ((q - 1) * (1 + Z.of_nat n * (Z.of_nat N * T))) / 2.
(** error of (operand with error e, denominator D) times (exact operand bounded by M) *)
Definition prodE (N : nat) (pp : rparams) (n : nat) (B T : Z) (l0 l1 : nat) (q D e M : Z) : Z := Z.of_nat N * e * M + D * (mulE N pp n B T l0 l1 + rescE N n T q).
(** error of the doubling loop: [cnt] rounds, rotations by step, 2 step, 4 step, ... *)
Fixpoint loopE {N} (pp : rparams) (crs : crsT N) (n : nat) (B T : Z) (level : nat) (D : Z) (cnt : nat) (step e : Z) : Z :=
  match cnt with O => e | S cnt => loopE pp crs n B T level D cnt (2 * step) (2 * e + D * rotE pp crs n B T level step) end.

Ltac nn := repeat match goal with |- 0 <= _ + _ => apply Z.add_nonneg_nonneg | |- 0 <= _ * _ => apply Z.mul_nonneg_nonneg end; try lia.
(** ** Slots *)
Lemma cadd_assoc x y z : cadd x (cadd y z) = cadd (cadd x y) z. Proof. apply (Radd_assoc CC_ring). Qed.
Lemma csum_ext n f g : (forall i, (i < n)%nat -> f i = g i) -> csum n f = csum n g.
Proof. intros H. unfold csum. induction n as [|n IH]; cbn [ksum]; [reflexivity|]. rewrite IH by (intros; apply H; lia). rewrite H by lia. reflexivity. Qed.
Lemma csum_pairs n f : csum n (fun k => cadd (f (2 * k)%nat) (f (2 * k + 1)%nat)) = csum (2 * n) f.
Proof.
  induction n as [|n IH]; [reflexivity|]. replace (2 * S n)%nat with (S (S (2 * n))) by lia. unfold csum in *. cbn [ksum]. rewrite IH, cadd_assoc. do 2 f_equal. lia.
Qed.
Lemma csum_S n f : csum (S n) f = cadd (csum n f) (f n). Proof. reflexivity. Qed.
Lemma csum_add n f g : csum n (fun i => cadd (f i) (g i)) = cadd (csum n f) (csum n g).
Proof. apply (ksum_add (0%R, 0%R) (1%R, 0%R) cadd cmul csub copp eq eq_equivalence CC_ext CC_ring). Qed.
Section SlotRing.
  Context {N : nat} (P2 : pow2 N) (N2 : (2 <= N)%nat).
  Lemma zslot_add (a b : R N) z : zslot (add a b) z = cadd (zslot a z) (zslot b z).
  Proof. unfold zslot. rewrite <- !slot_ckks by lia. unfold slot. apply (evalp_add (0%R, 0%R) (1%R, 0%R) cadd cmul csub copp eq eq_equivalence CC_ext CC_ring). Qed.
  Lemma zslot_mul (a b : R N) z : zslot (mul a b) z = cmul (zslot a z) (zslot b z).
  Proof.
    unfold zslot. rewrite <- !slot_ckks by lia. unfold slot. apply (evalp_mul (0%R, 0%R) (1%R, 0%R) cadd cmul csub copp eq eq_equivalence CC_ext CC_ring); [lia|].
    apply (root_pow (0%R, 0%R) (1%R, 0%R) cadd cmul csub copp eq eq_equivalence CC_ext CC_ring); [apply cis_root; lia|apply odd5].
  Qed.
  Lemma zslot_smul z' (a : R N) z : zslot (smul z' a) z = cscale z' (zslot a z).
  Proof. unfold zslot, cscale. rewrite <- !slot_ckks by lia. unfold slot. rewrite (evalp_smul (0%R, 0%R) (1%R, 0%R) cadd cmul csub copp eq eq_equivalence CC_ext CC_ring), cofZ_val. reflexivity. Qed.
  Lemma half_pos : 0 < Z.of_nat (N / 2).
  Proof. pose proof (Nat.div_le_mono 2 N 2 ltac:(lia) N2) as H. change (2 / 2)%nat with 1%nat in H. lia. Qed.
  Lemma zslot_rot (a : R N) k z : zslot (galois (5 ^ (k mod Z.of_nat (N / 2))) a) z = zslot a (z + k).
  Proof.
    pose proof half_pos as H. set (h := Z.of_nat (N / 2)) in *. unfold zslot. fold h. pose proof (Z.mod_pos_bound k h H) as K. pose proof (Z.mod_pos_bound z h H) as Zb.
    rewrite <- (Z2Nat.id (k mod h)) by lia. rewrite C25_ckks_rotate by assumption. f_equal.
    apply Nat2Z.inj. rewrite Nat2Z.inj_mod, Nat2Z.inj_add, !Z2Nat.id by (try apply Z.mod_pos_bound; lia). fold h. rewrite Z.add_mod_idemp_l, Z.add_mod_idemp_r by lia. reflexivity.
  Qed.
End SlotRing.

(** ** The operations *)
Section Ops.
  Context {N : nat} (pp : rparams) (crs : crsT N) (pscale : f64) (rs : rlkset N) (rk : rotset N) (w : nat -> nat -> IdSetModel.order).
  Context (ids : list string) (s r : string -> R N) (B T : Z) (RD : ready pp crs pscale rs ids s r B T) (OW : forall a b, order_ok (w a b)).
  Notation R := (R N). Notation ckct := (ckct N).
  Add Ring R_ring30 : (@R_ring_theory N).
  Notation input := (input pp ids s). Notation result := (result pp ids s).
  Notation rotE := (rotE pp crs (length ids) B T). Notation mulE := (mulE N pp (length ids) B T). Notation rescE := (rescE N (length ids) T).
  Notation prodE := (prodE N pp (length ids) B T). Notation loopE := (loopE pp crs (length ids) B T).
  Let WF := rd_wf _ _ _ _ _ _ _ _ _ RD.
  Let P2 := pow2N pp WF.
  Let N2 := proj1 (wf_N _ _ WF).

  Lemma npar (c : ctT N) level : wfct pp level false c -> incl (parties c) ids -> (length (parties c) <= length ids)%nat.
  Proof. intros W I. apply NoDup_incl_length; [apply parties_nodup, W|exact I]. Qed.

  Lemma input_result c level sc m D : input c level sc m -> result c level sc D (smul D m) 0.
  Proof. intros (A & E & I & H). split; [exact A|]. split; [exact E|]. split; [exact I|]. exists m. split; [exact H|]. intros i Hi. rewrite co_sub. lia. Qed.
  Lemma result_ext c level sc D m m' Bd : m = m' -> result c level sc D m Bd -> result c level sc D m' Bd.
  Proof. intros <-. trivial. Qed.

  (** addition, equal or close scales *)
  Lemma add_gen (o : IdSetModel.order) st c0 c1 l0 l1 sc0 sc1 D m0 m1 B0 B1 : order_ok o -> pool_ok pp st -> (l0 < length (Qm pp))%nat -> (l1 < length (Qm pp))%nat ->
    sc0 = sc1 \/ close sc0 sc1 -> result c0 l0 sc0 D m0 B0 -> result c1 l1 sc1 D m1 B1 ->
    exists st' c, AddNew pp o st c0 c1 = Ok (st', c) /\ pool_ok pp st' /\ result c (Nat.min l0 l1) (f_max sc0 sc1) D (add m0 m1) (B0 + B1).
  Proof.
    intros O PO H0 H1 SC (W0 & E0 & I0 & p0 & D0 & X0) (W1 & E1 & I1 & p1 & D1 & X1).
    assert (G : exists st' v, AddNew pp o st c0 c1 = Ok (st', CK v (f_max (csc c0) (csc c1))) /\ pool_ok pp st' /\ wfct pp (Nat.min l0 l1) false v /\
      (forall x, In x (keys v) <-> In x (keys (cv c0)) \/ In x (keys (cv c1))) /\
      forall s j, (j <= Nat.min l0 l1)%nat -> eqm (mq (Qi pp j)) (phase pp s v j) (add (phase pp s (cv c0) j) (phase pp s (cv c1) j))).
    { destruct SC as [SE|(F0 & F1 & Q0 & Q1 & R0 & R1)].
      - assert (CE : csc c0 = csc c1) by congruence. destruct (C18_add N pp o st c0 c1 l0 l1 WF O PO H0 H1 W0 W1 CE) as (st' & v & A1 & A2 & A3 & A4 & A5).
        exists st', v. rewrite <- CE, f_max_same. repeat (split; [assumption|]). exact A5.
      - assert (AF : forall a b : f64, is_finite a = true -> (0 < B2R a)%R -> (0 < B2R b)%R -> (B2R b <= 3 / 2 * B2R a)%R -> align_factor a b = 1 /\ okratio a b).
        { intros a b _ Pa Pb Hab. assert (Rt : (B2R b / B2R a <= 3 / 2)%R) by (apply Rmult_le_reg_r with (B2R a); [exact Pa|]; unfold Rdiv at 1; rewrite Rmult_assoc, Rinv_l by lra; lra).
          split.
          - unfold align_factor. assert (rnd (B2R b / B2R a) <= 3 / 2)%R.
            { eapply Rle_trans; [apply rnd_le, Rt|]. rewrite rnd_fmt; [lra|]. replace (3 / 2)%R with (F2R (Float radix2 3 (-1))) by (unfold F2R; cbn; lra). apply fmt_F2R; lia. }
            assert (Zfloor (rnd (B2R b / B2R a)) < 2); [|lia]. apply lt_IZR. eapply Rle_lt_trans; [apply Zfloor_lb|]. lra.
          - left. eapply Rle_trans; [exact Rt|]. apply Rle_trans with 2%R; [lra|apply IZR_le; lia]. }
        subst sc0 sc1. destruct (AF _ _ F0 Q0 Q1 R0) as [A0 K0]. destruct (AF _ _ F1 Q1 Q0 R1) as [A1 K1].
        destruct (C19_add N pp o st c0 c1 l0 l1 WF O PO H0 H1 W0 W1 F0 F1 Q0 Q1 K0 K1) as (st' & v & U1 & U2 & U3 & U4 & U5).
        exists st', v. repeat (split; [assumption|]). intros s' j Hj. specialize (U5 s' j Hj). rewrite A0, A1 in U5. rewrite !smul_cst, !mul_cst1 in U5. exact U5. }
    destruct G as (st' & v & A1 & A2 & A3 & A4 & A5). exists st', (CK v (f_max (csc c0) (csc c1))). split; [exact A1|]. split; [exact A2|].
    split; [exact A3|]. split; [cbn [csc]; rewrite E0, E1; reflexivity|]. split.
    - intros x Hx. cbn [cv] in Hx. apply in_parties in Hx as [X Y]. apply A4 in Y as [Y|Y]; [apply I0|apply I1]; apply in_parties; tauto.
    - exists (add p0 p1). split.
      + intros j Hj. cbn [cv]. rewrite A5 by exact Hj. rewrite (D0 j ltac:(lia)), (D1 j ltac:(lia)). reflexivity.
      + replace (sub (smul D (add p0 p1)) (add m0 m1)) with (add (sub (smul D p0) m0) (sub (smul D p1) m1)); [apply bnd_add; assumption|]. rewrite !smul_cst. ring.
  Qed.
  Lemma add_ok (o : IdSetModel.order) st c0 c1 l sc D m0 m1 B0 B1 : order_ok o -> pool_ok pp st -> (l < length (Qm pp))%nat -> result c0 l sc D m0 B0 -> result c1 l sc D m1 B1 ->
    exists st' c, AddNew pp o st c0 c1 = Ok (st', c) /\ pool_ok pp st' /\ result c l sc D (add m0 m1) (B0 + B1).
  Proof.
    intros O PO HL R0 R1. destruct (add_gen o st c0 c1 l l sc sc D m0 m1 B0 B1 O PO HL HL (or_introl eq_refl) R0 R1) as (st' & c & A & A' & C). exists st', c.
    rewrite Nat.min_id, f_max_same in C. split; [exact A|]. split; [exact A'|exact C].
  Qed.

  (** rotation *)
  Lemma onesp_pos p : 0 <= onesp p. Proof. induction p; cbn [onesp]; lia. Qed.
  Lemma rot_count_nonneg z : 0 <= rot_count crs z.
  Proof. unfold rot_count. destruct (z =? 0); [lia|]. destruct (mget Z.eq_dec crs z); [lia|]. unfold ones. destruct z; try lia. apply onesp_pos. Qed.
  Lemma switch_nonneg level : 0 <= switch_noise N pp level (dig_bound pp level) B T.
  Proof.
    pose proof (rd_B _ _ _ _ _ _ _ _ _ RD). pose proof (rd_T _ _ _ _ _ _ _ _ _ RD). pose proof (dig_bound_nonneg pp level). pose proof (Pprod_pos pp WF) as PP.
    pose proof (slack_nonneg (Pprod pp) ltac:(lia)). unfold switch_noise. apply Z.div_pos; [|lia].
    nn.
  Qed.
  Lemma rot_ok (o : nat -> IdSetModel.order) c k level sc D m Bd : (forall n, order_ok (o n)) -> (level < length (Qm pp))%nat -> rot_avail pp crs rk ids s B T k -> 0 <= D -> result c level sc D m Bd ->
    exists c', RotateNew pp o crs c k rk = Ok c' /\ result c' level sc D (galois (5 ^ (k mod Z.of_nat (N / 2))) m) (Bd + D * rotE level k).
  Proof.
    intros O HL AV D0 (W & E & I & p & Dp & X). pose proof (half_pos N2) as HP. pose proof (Z.mod_pos_bound k _ HP) as KB.
    destruct (C23_rotate_new N pp o crs c k rk s B T level WF O (rd_small _ _ _ _ _ _ _ _ _ RD) HL W) as (v & Er & A1 & A2 & A3 & A4 & A5).
    - intros i Hr Hu. apply (AV i Hr Hu).
    - intros i id Hr Hu Hid. apply (AV i Hr Hu). apply I. exact Hid.
    - exists (CK v (csc c)). split; [exact A1|]. split; [exact A2|]. split; [exact E|]. split.
      + intros x Hx. apply I. cbn [cv] in Hx. apply in_parties in Hx. apply in_parties. rewrite <- A3. exact Hx.
      + set (rr := k mod Z.of_nat (N / 2)) in *. exists (add (galois (5 ^ rr) p) Er). split.
        * intros j Hj. cbn [cv]. rewrite A5 by exact Hj. apply eqm_add; [|reflexivity]. apply (galois_eqm pp WF); [lia|]. apply Dp. exact Hj.
        * replace (sub (smul D (add (galois (5 ^ rr) p) Er)) (galois (5 ^ rr) m)) with (add (galois (5 ^ rr) (sub (smul D p) m)) (smul D Er)).
          -- apply bnd_add; [apply (galois_bnd pp WF); [lia|exact X]|]. eapply bnd_le; [apply bnd_smul, A4|]. rewrite Z.abs_eq by exact D0. apply Z.mul_le_mono_nonneg_l; [exact D0|].
             unfold PropsCnn.rotE. apply Z.mul_le_mono_nonneg_l; [apply rot_count_nonneg|]. apply Z.mul_le_mono_nonneg_r; [apply switch_nonneg|].
             pose proof (npar (cv c) level W I). lia.
          -- rewrite !(galois_galEl P2) by lia. apply R_ext. intros i Hi. rewrite co_add, !co_sub, !co_smul, co_add. 
             rewrite aut_sub, co_sub, aut_smul, co_smul. ring.
  Qed.

  (** hoisting *)
  Lemma hoistedForm_ok (o : IdSetModel.order) (c : ckct) level : order_ok o -> (level < length (Qm pp))%nat -> wfct pp level false (cv c) ->
    exists h, HoistedForm pp o c = Ok h /\ hoisted_at pp level (cv c) (Some h).
  Proof.
    intros O HL W. unfold HoistedForm. destruct (IDSetOf_ok (o 50%nat) (cv c)) as (is & A & _ & X); [intros l; apply O|]. rewrite A. cbn [rbind]. rewrite (wfct_level pp _ _ _ W). cbn [rbind].
    assert (KI : forall x, In x (keys is) <-> In x (parties (cv c))).
    { intros x. rewrite in_parties, <- X. unfold is_has. rewrite mhas_In. reflexivity. }
    assert (G : forall l h0, (forall x, In x l -> In x (parties (cv c))) ->
      exists h, rfold (fun h id => p <- cgetL (cv c) id level ;; d <- Decompose pp level p ;; Ok (mset seq_dec h id d)) l h0 = Ok h /\
        forall id, In id l \/ (exists ds, Decompose pp level (comp (cv c) id) = Ok ds /\ mget seq_dec h0 id = Some ds) -> exists ds, Decompose pp level (comp (cv c) id) = Ok ds /\ mget seq_dec h id = Some ds).
    { induction l as [|x l IH]; intros h0 Hl; cbn [rfold]; [exists h0; split; [reflexivity|]; intros id [[]|H]; exact H|].
      assert (Px : In x (parties (cv c))) by (apply Hl; left; reflexivity). apply in_parties in Px as Px'. destruct Px' as [_ Kx].
      destruct (wfct_comp pp _ _ _ _ W Kx) as (L & _). rewrite cgetL_comp by (trivial; lia). cbn [rbind].
      destruct (decompose_some pp level (cv c) x WF HL W Kx) as [ds Eds]. rewrite Eds. cbn [rbind].
      destruct (IH (mset seq_dec h0 x ds)) as (h & H1 & H2); [intros y Hy; apply Hl; right; exact Hy|]. exists h. split; [exact H1|]. intros id Hid. apply H2.
      destruct (string_dec x id) as [->|n].
      - right. exists ds. split; [exact Eds|]. rewrite mget_mset. destruct (seq_dec id id); congruence.
      - destruct Hid as [[Hid|Hid]|(ds' & D1 & D2)]; [contradiction|left; exact Hid|right]. exists ds'. split; [exact D1|]. rewrite mget_mset. destruct (seq_dec id x); [congruence|exact D2]. }
    destruct (G (o 51%nat (keys is)) nil) as (h & H1 & H2).
    { intros x Hx. apply KI. apply (Permutation_in _ (O 51%nat (keys is))). exact Hx. }
    exists h. split; [exact H1|]. intros id Hid. apply H2. left. apply (Permutation_in _ (Permutation_sym (O 51%nat (keys is)))). apply KI. exact Hid.
  Qed.
  Lemma rotH_ok (o : nat -> IdSetModel.order) c k h level sc D m Bd : (forall n, order_ok (o n)) -> (level < length (Qm pp))%nat -> rot_avail pp crs rk ids s B T k -> hoist_avail crs k -> 0 <= D ->
    hoisted_at pp level (cv c) (Some h) -> result c level sc D m Bd ->
    exists c', RotateHoistedNew pp o crs c k h rk = Ok c' /\ result c' level sc D (galois (5 ^ (k mod Z.of_nat (N / 2))) m) (Bd + D * rotE level k).
  Proof.
    intros O HL AV HA D0 HH RC. rewrite (C23_hoisted N pp o crs c k h rk level WF O HL (proj1 RC) HH).
    replace ((k mod Z.of_nat (N / 2) =? 0) || mhas Z.eq_dec crs (k mod Z.of_nat (N / 2))) with true.
    - apply (rot_ok o c k level sc D m Bd O HL AV D0 RC).
    - symmetry. apply orb_true_iff. destruct HA as [HA|HA]; [left; apply Z.eqb_eq; exact HA|right]. unfold mhas. destruct (mget Z.eq_dec crs (k mod Z.of_nat (N / 2))); [reflexivity|contradiction].
  Qed.

  (** multiplication by an exact operand *)
  Lemma mul_noise_mono level n0 n1 n DB0 DB1 : 0 <= DB0 -> 0 <= DB1 -> (n0 <= n)%nat -> (n1 <= n)%nat -> mul_noise N pp level n0 n1 DB0 DB1 B T <= mul_noise N pp level n n DB0 DB1 B T.
  Proof.
    intros H0 H1 L0 L1. pose proof (rd_B _ _ _ _ _ _ _ _ _ RD) as HB. pose proof (rd_T _ _ _ _ _ _ _ _ _ RD) as HT. pose proof (Pprod_pos pp WF) as PP. pose proof (slack_nonneg (Pprod pp) ltac:(lia)) as SP.
    pose proof (switch_nonneg level) as SN. unfold mul_noise. apply Z.add_le_mono; [|apply Z.mul_le_mono_nonneg_r; [exact SN|lia]].
    apply Z.div_le_mono; [exact PP|]. repeat apply Z.add_le_mono.
    - set (X := Z.of_nat (beta pp level) * _). assert (0 <= X) by (unfold X; nn).
      apply Z.mul_le_mono_nonneg; [lia|lia|apply Z.mul_nonneg_nonneg; lia|apply Z.mul_le_mono_nonneg_r; lia].
    - apply Z.mul_le_mono_nonneg_r; [nn|lia].
    - apply Z.mul_le_mono_nonneg_r; [nn|lia].
  Qed.
  Lemma rescaled_err q n (m m' : R) : 1 <= q -> (n <= length ids)%nat -> rescaled q n T m m' -> exists E, smul q m' = add m E /\ bnd E (rescE q).
  Proof.
    intros Q1 L (E & A & C). exists E. split; [exact A|]. intros i Hi. specialize (C i Hi). rewrite co_smul, Z.abs_mul in C. change (Z.abs 2) with 2 in C.
    unfold PropsCnn.rescE. apply Z.div_le_lower_bound; [lia|]. eapply Z.le_trans; [exact C|]. pose proof (rd_T _ _ _ _ _ _ _ _ _ RD).
    apply Z.mul_le_mono_nonneg_l; [lia|]. apply Z.add_le_mono_l. apply Z.mul_le_mono_nonneg_r; [apply Z.mul_nonneg_nonneg; lia|lia].
  Qed.
  Lemma dropped_pos nb level : (level < length (Qm pp))%nat -> (nb <= level)%nat -> 1 <= prodl (dropped pp nb level).
  Proof.
    intros HL HN. assert (0 < prodl (dropped pp nb level)); [|lia]. apply prodl_pos. intros x Hx. unfold dropped in Hx. apply in_map_iff in Hx as (i & <- & Hi).
    destruct (okQ pp WF (level - i) ltac:(lia)) as [_ [_ X]]. lia.
  Qed.
  (** what is common to the two products *)
  Lemma mul_result (v c0 c1 : ctT N) l0 l1 nb sc D m0 B0 p1 M1 : (l0 < length (Qm pp))%nat -> (l1 < length (Qm pp))%nat -> let level := Nat.min l0 l1 in (nb <= level)%nat -> 0 <= D ->
    wfct pp l0 false c0 -> wfct pp l1 false c1 -> incl (parties c0) ids -> incl (parties c1) ids -> decrypts pp s c1 l1 p1 -> bnd p1 M1 ->
    (exists phi, decrypts pp s c0 l0 phi /\ bnd (sub (smul D phi) m0) B0) ->
    wfct pp (level - nb) false v -> (forall x, In x (keys v) <-> In x (keys c0) \/ In x (keys c1)) -> mul_rescaled pp s c0 c1 l0 l1 B T nb v ->
    let q := prodl (dropped pp nb level) in
    result (CK v sc) (level - nb) sc (q * D) (mul m0 p1) (prodE l0 l1 q D B0 M1).
  Proof.
    intros H0 H1 level HN D0 W0 W1 I0 I1 X1 BM (p0 & X0 & Y0) WV KV (E & EB & MR) q. split; [exact WV|]. split; [reflexivity|].
    assert (IV : incl (parties v) ids).
    { intros x Hx. apply in_parties in Hx as [X Y]. apply KV in Y as [Y|Y]; [apply I0|apply I1]; apply in_parties; tauto. }
    split; [exact IV|]. destruct (MR p0 p1) as (m' & R1 & R2).
    - intros j Hj. apply X0. unfold level in *. lia.
    - intros j Hj. apply X1. unfold level in *. lia.
    - exists m'. split; [exact R2|]. fold level q in R1. assert (Q1 : 1 <= q) by (apply dropped_pos; unfold level in *; lia).
      destruct (rescaled_err q (length (parties v)) _ _ Q1 (npar v _ WV IV) R1) as (E' & S1 & S2).
      replace (sub (smul (q * D) m') (mul m0 p1)) with (add (mul (sub (smul D p0) m0) p1) (smul D (add E E'))).
      + unfold PropsCnn.prodE. apply bnd_add; [apply bnd_mul; assumption|]. rewrite <- (Z.abs_eq D D0) at 2. apply bnd_smul. apply bnd_add; [|exact S2]. eapply bnd_le; [exact EB|].
        apply mul_noise_mono; [apply dig_bound_nonneg|apply dig_bound_nonneg|apply (npar c0 l0 W0 I0)|apply (npar c1 l1 W1 I1)].
      + replace (smul (q * D) m') with (smul D (smul q m')) by (apply R_ext; intros i Hi; rewrite !co_smul; ring). rewrite S1, !smul_cst. ring.
  Qed.
  Lemma mulH_ok (o : IdSetModel.order) c0 c1 h0 h1 l0 l1 sc0 sc1 nb D m0 B0 p1 M1 : order_ok o -> (1 <= l0 < length (Qm pp))%nat -> (1 <= l1 < length (Qm pp))%nat -> 0 <= D ->
    result c0 l0 sc0 D m0 B0 -> input c1 l1 sc1 p1 -> bnd p1 M1 -> hoisted_at pp l0 (cv c0) (Some h0) -> hoisted_at pp l1 (cv c1) (Some h1) ->
    let level := Nat.min l0 l1 in let q := prodl (dropped pp nb level) in
    f_eq (f_mul sc0 sc1) f_zero = false -> divisions pp level (f_mul sc0 sc1) (f_div pscale (f_of_int 2)) nb ->
    exists c, MulRelinHoistedNew pp o crs pscale c0 c1 (Some h0) (Some h1) rs = Ok c /\
      result c (level - nb) (rscale pp level (f_mul sc0 sc1) nb) (q * D) (mul m0 p1) (prodE l0 l1 q D B0 M1).
  Proof.
    intros O H0 H1 D0 (W0 & E0 & I0 & X0) (W1 & E1 & I1 & X1) BM HH0 HH1 level q F DV. destruct (rd_crs _ _ _ _ _ _ _ _ _ RD) as (a & u & GA & GU & CA & CU).
    destruct (C44_mul_relin_hoisted_new N pp o crs pscale c0 c1 h0 h1 rs s r a u B T l0 l1 nb WF O (rd_small _ _ _ _ _ _ _ _ _ RD) H0 H1 W0 W1 GA GU CA CU) as (v & A1 & A2 & A3 & A4); trivial.
    - intros id [Hid|Hid]; apply (rd_relin _ _ _ _ _ _ _ _ _ RD); [apply I0|apply I1]; exact Hid.
    - exact (rd_scale _ _ _ _ _ _ _ _ _ RD).
    - rewrite E0, E1. exact F.
    - rewrite E0, E1. exact DV.
    - rewrite E0, E1 in A1. eexists. split; [exact A1|]. apply (mul_result v (cv c0) (cv c1) l0 l1 nb _ D m0 B0 p1 M1); trivial; try lia. apply DV.
  Qed.
  Lemma mulR_ok (o : IdSetModel.order) c0 c1 l0 l1 sc0 sc1 nb D m0 B0 p1 M1 : order_ok o -> (1 <= l0 < length (Qm pp))%nat -> (1 <= l1 < length (Qm pp))%nat -> 0 <= D ->
    result c0 l0 sc0 D m0 B0 -> input c1 l1 sc1 p1 -> bnd p1 M1 ->
    let level := Nat.min l0 l1 in let q := prodl (dropped pp nb level) in
    f_eq (f_mul sc0 sc1) f_zero = false -> divisions pp level (f_mul sc0 sc1) (f_div pscale (f_of_int 2)) nb ->
    exists c, MulRelinNew pp o crs pscale c0 c1 false rs = Ok c /\
      result c (level - nb) (rscale pp level (f_mul sc0 sc1) nb) (q * D) (mul m0 p1) (prodE l0 l1 q D B0 M1).
  Proof.
    intros O H0 H1 D0 (W0 & E0 & I0 & X0) (W1 & E1 & I1 & X1) BM level q F DV. destruct (rd_crs _ _ _ _ _ _ _ _ _ RD) as (a & u & GA & GU & CA & CU).
    destruct (C44_mul_relin_new N pp o crs pscale c0 c1 false rs s r a u B T l0 l1 nb WF O (rd_small _ _ _ _ _ _ _ _ _ RD) ltac:(discriminate) H0 H1 W0 W1 GA GU CA CU) as (v & A1 & A2 & A3 & A4); trivial.
    - intros id [Hid|Hid]; apply (rd_relin _ _ _ _ _ _ _ _ _ RD); [apply I0|apply I1]; exact Hid.
    - exact (rd_scale _ _ _ _ _ _ _ _ _ RD).
    - rewrite E0, E1. exact F.
    - rewrite E0, E1. exact DV.
    - rewrite E0, E1 in A1. eexists. split; [exact A1|]. apply (mul_result v (cv c0) (cv c1) l0 l1 nb _ D m0 B0 p1 M1); trivial; try lia. apply DV.
  Qed.

  (** rotate and add *)
  Lemma rotAdd_ok n st c k level sc D m Bd : pool_ok pp st -> (level < length (Qm pp))%nat -> rot_avail pp crs rk ids s B T k -> 0 <= D -> result c level sc D m Bd ->
    exists st' c', rotAdd pp crs rk w n st c k = Ok (st', c') /\ pool_ok pp st' /\
      result c' level sc D (add m (galois (5 ^ (k mod Z.of_nat (N / 2))) m)) (2 * Bd + D * rotE level k).
  Proof.
    intros PO HL AV D0 RC. destruct (rot_ok (w n) c k level sc D m Bd (OW n) HL AV D0 RC) as (t & A & RT).
    destruct (add_ok (w n 5%nat) st c t level sc D _ _ _ _ (OW n 5%nat) PO HL RC RT) as (st' & c' & C1 & C2 & C3). exists st', c'. unfold rotAdd. rewrite A. cbn [rbind].
    split; [exact C1|]. split; [exact C2|]. replace (2 * Bd + D * rotE level k) with (Bd + (Bd + D * rotE level k)) by ring. exact C3.
  Qed.
  Lemma loop_ok cnt : forall step n st c level sc D m Bd, pool_ok pp st -> (level < length (Qm pp))%nat -> (forall i, (i < cnt)%nat -> rot_avail pp crs rk ids s B T (step * 2 ^ Z.of_nat i)) -> 0 <= D -> result c level sc D m Bd ->
    exists st' c' M, rotAddLoop pp crs rk w cnt step n st c = Ok (st', c') /\ pool_ok pp st' /\ result c' level sc D M (loopE level D cnt step Bd) /\
      forall z, zslot M z = csum (2 ^ cnt) (fun k => zslot m (z + step * Z.of_nat k)).
  Proof.
    induction cnt as [|cnt IH]; intros step n st c level sc D m Bd PO HL AV D0 RC; cbn [rotAddLoop PropsCnn.loopE].
    - exists st, c, m. split; [reflexivity|]. split; [exact PO|]. split; [exact RC|]. intros z. unfold csum. cbn [Nat.pow ksum]. rewrite Z.mul_0_r, Z.add_0_r. symmetry. apply (Radd_0_l CC_ring).
    - destruct (rotAdd_ok n st c step level sc D m Bd PO HL) as (st1 & c1 & A1 & A2 & A3); [|exact D0|exact RC|].
      { specialize (AV 0%nat ltac:(lia)). replace (step * 2 ^ Z.of_nat 0) with step in AV by (cbn; ring). exact AV. }
      assert (AV' : forall i, (i < cnt)%nat -> rot_avail pp crs rk ids s B T (2 * step * 2 ^ Z.of_nat i)).
      { intros i Hi. specialize (AV (S i) ltac:(lia)). rewrite Nat2Z.inj_succ, Z.pow_succ_r in AV by lia. replace (2 * step * 2 ^ Z.of_nat i) with (step * (2 * 2 ^ Z.of_nat i)) by ring. exact AV. }
      rewrite A1. cbn [rbind]. destruct (IH (2 * step) (S n) st1 c1 level sc D _ _ A2 HL AV' D0 A3) as (st' & c' & M & B1 & B2 & B3 & B4).
      exists st', c', M. split; [exact B1|]. split; [exact B2|]. split; [exact B3|]. intros z. rewrite B4. cbn [Nat.pow]. replace (2 ^ cnt + (2 ^ cnt + 0))%nat with (2 * 2 ^ cnt)%nat by lia.
      rewrite <- csum_pairs. apply csum_ext. intros i Hi. rewrite (zslot_add N2), (zslot_rot P2 N2). f_equal; f_equal; lia.
  Qed.

  (** one term: hoisted rotation, product with an exact operand *)
  Lemma term_ok n (img : ckct) himg ki hi k li lk si sk nb (phi psi : R) M : (1 <= li < length (Qm pp))%nat -> (1 <= lk < length (Qm pp))%nat ->
    input img li si phi -> hoisted_at pp li (cv img) (Some himg) -> input ki lk sk psi -> bnd psi M -> hoisted_at pp lk (cv ki) (Some hi) ->
    rot_avail pp crs rk ids s B T k -> hoist_avail crs k ->
    let level := Nat.min li lk in let q := prodl (dropped pp nb level) in
    f_eq (f_mul si sk) f_zero = false -> divisions pp level (f_mul si sk) (f_div pscale (f_of_int 2)) nb ->
    exists t h c, RotateHoistedNew pp (w n) crs img k himg rk = Ok t /\ HoistedForm pp (w n 6%nat) t = Ok h /\ MulRelinHoistedNew pp (w n 7%nat) crs pscale t ki (Some h) (Some hi) rs = Ok c /\
      result c (level - nb) (rscale pp level (f_mul si sk) nb) q (mul (galois (5 ^ (k mod Z.of_nat (N / 2))) phi) psi) (prodE li lk q 1 (rotE li k) M).
  Proof.
    intros H0 H1 IM HM IK BM HK AV HA level q F DV. pose proof (input_result img li si phi 1 IM) as RI.
    destruct (rotH_ok (w n) img k himg li si 1 _ 0 (OW n) ltac:(lia) AV HA ltac:(lia) HM RI) as (t & A1 & A2). replace (0 + 1 * rotE li k) with (rotE li k) in A2 by ring.
    replace (smul 1 phi) with phi in A2 by (apply R_ext; intros i Hi; rewrite co_smul; lia).
    destruct (hoistedForm_ok (w n 6%nat) t li (OW n 6%nat) ltac:(lia) (proj1 A2)) as (h & B1 & B2).
    destruct (mulH_ok (w n 7%nat) t ki h hi li lk si sk nb 1 _ _ psi M (OW n 7%nat) H0 H1 ltac:(lia) A2 IK BM B2 HK F DV) as (c & C1 & C2). fold level q in C2. rewrite Z.mul_1_r in C2.
    exists t, h, c. repeat (split; [assumption|]). exact C2.
  Qed.
  Lemma term_level li lk sc nb : (1 <= li < length (Qm pp))%nat -> (1 <= lk < length (Qm pp))%nat -> divisions pp (Nat.min li lk) sc (f_div pscale (f_of_int 2)) nb ->
    (Nat.min li lk - nb < length (Qm pp))%nat /\ 0 <= prodl (dropped pp nb (Nat.min li lk)).
  Proof. intros H0 H1 DV. split; [lia|]. pose proof (dropped_pos nb (Nat.min li lk) ltac:(lia) (proj1 DV)). lia. Qed.

  (** the loop of FC1Layer, once fc1Out exists *)
  Lemma fc1Loop_ok (vec : ckct) hvec hmat li lk si sk nb (phi : R) (psi : nat -> R) M : (1 <= li < length (Qm pp))%nat -> (1 <= lk < length (Qm pp))%nat ->
    input vec li si phi -> hoisted_at pp li (cv vec) (Some hvec) ->
    let level := Nat.min li lk in let q := prodl (dropped pp nb level) in
    f_eq (f_mul si sk) f_zero = false -> divisions pp level (f_mul si sk) (f_div pscale (f_of_int 2)) nb ->
    forall mats i st c m e, pool_ok pp st ->
    (forall k mat, nth_error mats k = Some mat -> input mat lk sk (psi (i + k)%nat) /\ bnd (psi (i + k)%nat) M /\
       (exists h, nth_error hmat (i + k) = Some h /\ hoisted_at pp lk (cv mat) (Some h)) /\ rot_avail pp crs rk ids s B T (Z.of_nat (i + k) * 128) /\ hoist_avail crs (Z.of_nat (i + k) * 128)) ->
    result c (level - nb) (rscale pp level (f_mul si sk) nb) q m e ->
    exists st' c', fc1Loop pp crs pscale rs rk w i st vec hvec mats hmat (Some c) = Ok (st', Some c') /\ pool_ok pp st' /\
      result c' (level - nb) (rscale pp level (f_mul si sk) nb) q
        (add m (Lsum (seq i (length mats)) (fun k => mul (galois (5 ^ ((Z.of_nat k * 128) mod Z.of_nat (N / 2))) phi) (psi k))))
        (e + fold_right (fun k x => prodE li lk q 1 (rotE li (Z.of_nat k * 128)) M + x) 0 (seq i (length mats))).
  Proof.
    intros H0 H1 IV HV level q F DV. destruct (term_level li lk _ nb H0 H1 DV) as [LV QP]. induction mats as [|mat mats IH]; intros i st c m e PO HM RC; cbn [fc1Loop length seq Lsum fold_right].
    - exists st, c. split; [reflexivity|]. split; [exact PO|]. rewrite Z.add_0_r. rewrite add_0_r. exact RC.
    - destruct (HM 0%nat mat eq_refl) as (A1 & A2 & (h & A3 & A4) & A5 & A6). rewrite Nat.add_0_r in *.
      destruct (term_ok i vec hvec mat h (Z.of_nat i * 128) li lk si sk nb phi (psi i) M H0 H1 IV HV A1 A2 A4 A5 A6 F DV) as (t & ht & d & T1 & T2 & T3 & T4).
      unfold fc1Term, ckCopyNew. destruct IV as (W & _). pose proof W as (W1 & W2 & _). destruct (CopyNew_ok (w i 8%nat 0%nat) (cv vec) (OW i 8%nat 0%nat) W1 W2) as (v' & V1 & _). rewrite V1. cbn [rbind].
      rewrite T1. cbn [rbind]. rewrite T2. cbn [rbind]. unfold idx. rewrite A3. cbn [rbind]. rewrite T3. cbn [rbind].
      destruct (add_ok (w i 5%nat) st c d _ _ q _ _ _ _ (OW i 5%nat) PO LV RC T4) as (st1 & c1 & C1 & C2 & C3). rewrite C1. cbn [rbind].
      assert (HM' : forall k mat', nth_error mats k = Some mat' -> input mat' lk sk (psi (S i + k)%nat) /\ bnd (psi (S i + k)%nat) M /\
       (exists h, nth_error hmat (S i + k) = Some h /\ hoisted_at pp lk (cv mat') (Some h)) /\ rot_avail pp crs rk ids s B T (Z.of_nat (S i + k) * 128) /\ hoist_avail crs (Z.of_nat (S i + k) * 128)).
      { intros k mat' Hk. specialize (HM (S k) mat' Hk). replace (S i + k)%nat with (i + S k)%nat by lia. exact HM. }
      destruct (IH (S i) st1 c1 _ _ C2 HM' C3) as (st' & c' & D1 & D2 & D3).
      exists st', c'. split; [exact D1|]. split; [exact D2|]. set (X := Lsum _ _) in *. set (Y := fold_right _ _ _) in *.
      match goal with |- result _ _ _ _ ?a ?b => match type of D3 with PropsCnn.result _ _ _ _ _ _ _ ?a' ?b' => replace a with a'; [replace b with b'; [exact D3|]|] end end.
      + fold level q. apply eq_sym, Z.add_assoc.
      + match goal with |- context [mul ?x (psi i)] => generalize (mul x (psi i)) end. intros zz. generalize X. intros zx. ring.
  Qed.
End Ops.

(** ** C33: the layers *)
Definition conv_err {N} (pp : rparams) (crs : crsT N) (n : nat) (B T : Z) (li lk nb : nat) (M : Z) : Z :=
  let level := Nat.min li lk in let q := prodl (dropped pp nb level) in
  let P e := prodE N pp n B T li lk q 1 e M in
  let e1 := P 0 + P (rotE pp crs n B T li 1) + P (rotE pp crs n B T li 14) + P (rotE pp crs n B T li 15) in
  let e2 := 2 * e1 + q * rotE pp crs n B T (level - nb) 2048 in
  2 * e2 + q * rotE pp crs n B T (level - nb) 1024.

Theorem C33_convolution : forall N pp (crs : crsT N) pscale rs rk w ids s r B T st img himg ker hker li lk si sk nb (phi : R N) kc kh psi M,
  ready pp crs pscale rs ids s r B T -> (forall a b, order_ok (w a b)) -> pool_ok pp st ->
  (1 <= li < length (Qm pp))%nat -> (1 <= lk < length (Qm pp))%nat ->
  input pp ids s img li si phi -> hoisted_at pp li (cv img) (Some himg) ->
  (forall i, (i < 4)%nat -> nth_error ker i = Some (kc i) /\ nth_error hker i = Some (kh i) /\ input pp ids s (kc i) lk sk (psi i) /\ bnd (psi i) M /\ hoisted_at pp lk (cv (kc i)) (Some (kh i))) ->
  (forall k, In k [1; 14; 15] -> rot_avail pp crs rk ids s B T k /\ hoist_avail crs k) -> rot_avail pp crs rk ids s B T 2048 -> rot_avail pp crs rk ids s B T 1024 ->
  let level := Nat.min li lk in let q := prodl (dropped pp nb level) in
  f_eq (f_mul si sk) f_zero = false -> divisions pp level (f_mul si sk) (f_div pscale (f_of_int 2)) nb ->
  exists st' out M', Convolution pp crs pscale rs rk w st img himg ker hker = Ok (st', out) /\ pool_ok pp st' /\
    result pp ids s out (level - nb) (rscale pp level (f_mul si sk) nb) q M' (conv_err pp crs (length ids) B T li lk nb M) /\
    forall z, let S x := cadd (cadd (cadd (cmul (zslot phi x) (zslot (psi 0%nat) x)) (cmul (zslot phi (x + 1)) (zslot (psi 1%nat) x)))
                               (cmul (zslot phi (x + 14)) (zslot (psi 2%nat) x))) (cmul (zslot phi (x + 15)) (zslot (psi 3%nat) x)) in
      zslot M' z = cadd (cadd (S z) (S (z + 2048))) (cadd (S (z + 1024)) (S (z + 1024 + 2048))).
Proof.
  intros N pp crs pscale rs rk w ids s r B T st img himg ker hker li lk si sk nb phi kc kh psi M RD OW PO H0 H1 IM HM HK AV A2048 A1024 level q F DV.
  pose proof (rd_wf _ _ _ _ _ _ _ _ _ RD) as WF. pose proof (pow2N pp WF) as P2. pose proof (proj1 (wf_N _ _ WF)) as N2.
  destruct (term_level pp crs pscale rs ids s r B T RD li lk _ nb H0 H1 DV) as [LV QP].
  unfold Convolution. destruct (HK 0%nat ltac:(lia)) as (K1 & K2 & K3 & K4 & K5). unfold idx at 1 2. rewrite K1. cbn [rbind]. rewrite K2. cbn [rbind].
  pose proof (input_result pp crs pscale rs ids s r B T RD img li si phi 1 IM) as RI. replace (smul 1 phi) with phi in RI by (apply R_ext; intros i Hi; rewrite co_smul; lia).
  destruct (mulH_ok pp crs pscale rs ids s r B T RD (w 0%nat 7%nat) img (kc 0%nat) himg (kh 0%nat) li lk si sk nb 1 _ _ (psi 0%nat) M (OW 0%nat 7%nat) H0 H1 ltac:(lia) RI K3 K4 HM K5 F DV) as (c0 & C1 & C2).
  fold level q in C2. rewrite Z.mul_1_r in C2. rewrite C1. cbn [rbind]. clear C1 K1 K2 K3 K4 K5 RI.
  assert (STEP : forall n st c m e k i, (i < 4)%nat -> In k [1; 14; 15] -> pool_ok pp st -> result pp ids s c (level - nb) (rscale pp level (f_mul si sk) nb) q m e ->
    exists st' c', convTerm pp crs pscale rs rk w n st img himg ker hker k i c = Ok (st', c') /\ pool_ok pp st' /\
      result pp ids s c' (level - nb) (rscale pp level (f_mul si sk) nb) q (add m (mul (galois (5 ^ (k mod Z.of_nat (N / 2))) phi) (psi i)))
        (e + prodE N pp (length ids) B T li lk q 1 (rotE pp crs (length ids) B T li k) M)).
  { intros n st0 c m e k i Hi Hk PO0 RC. destruct (HK i Hi) as (K1 & K2 & K3 & K4 & K5). destruct (AV k Hk) as [AV1 AV2].
    destruct (term_ok pp crs pscale rs rk w ids s r B T RD OW n img himg (kc i) (kh i) k li lk si sk nb phi (psi i) M H0 H1 IM HM K3 K4 K5 AV1 AV2 F DV) as (t & h & d & T1 & T2 & T3 & T4).
    unfold convTerm. rewrite T1. cbn [rbind]. rewrite T2. cbn [rbind]. unfold idx. rewrite K1. cbn [rbind]. rewrite K2. cbn [rbind]. rewrite T3. cbn [rbind].
    apply (add_ok pp crs pscale rs ids s r B T RD (w n 5%nat) st0 c d _ _ q _ _ _ _ (OW n 5%nat) PO0 LV RC T4). }
  destruct (STEP 1%nat st c0 _ _ 1 1%nat ltac:(lia) ltac:(cbn; tauto) PO C2) as (st1 & c1 & X1 & X2 & X3). rewrite X1. cbn [rbind].
  destruct (STEP 2%nat st1 c1 _ _ 14 2%nat ltac:(lia) ltac:(cbn; tauto) X2 X3) as (st2 & c2 & Y1 & Y2 & Y3). rewrite Y1. cbn [rbind].
  destruct (STEP 3%nat st2 c2 _ _ 15 3%nat ltac:(lia) ltac:(cbn; tauto) Y2 Y3) as (st3 & c3 & Z1 & Z2 & Z3). rewrite Z1. cbn [rbind].
  destruct (rotAdd_ok pp crs pscale rs rk w ids s r B T RD OW 4 st3 c3 2048 (level - nb) _ q _ _ Z2 LV A2048 QP Z3) as (st4 & c4 & U1 & U2 & U3). rewrite U1. cbn [rbind].
  destruct (rotAdd_ok pp crs pscale rs rk w ids s r B T RD OW 5 st4 c4 1024 (level - nb) _ q _ _ U2 LV A1024 QP U3) as (st5 & c5 & V1 & V2 & V3). rewrite V1.
  eexists st5, c5, _. split; [reflexivity|]. split; [exact V2|]. split; [exact V3|].
  intros z. repeat (rewrite (zslot_add N2) || rewrite (zslot_mul N2) || rewrite (zslot_rot P2 N2)). reflexivity.
Qed.
Print Assumptions C33_convolution.

Lemma zslot_sum N n (f : nat -> R N) z : (2 <= N)%nat -> zslot (Lsum (seq 0 n) f) z = csum n (fun i => zslot (f i) z).
Proof.
  intros N2. unfold zslot at 1. rewrite <- slot_ckks by lia. unfold slot.
  rewrite (evalp_Lsum (0%R, 0%R) (1%R, 0%R) cadd cmul csub copp eq eq_equivalence CC_ext CC_ring), (fold_ksum (0%R, 0%R) (1%R, 0%R) cadd cmul csub copp eq eq_equivalence CC_ext CC_ring).
  apply csum_ext. intros i Hi. unfold zslot. rewrite <- slot_ckks by lia. reflexivity.
Qed.

(** FC1Layer: one matrix per round, 128 partial sums, a bias *)
Definition fc1_err {N} (pp : rparams) (crs : crsT N) (n : nat) (B T : Z) (li lk nb : nat) (M : Z) (cnt : nat) : Z :=
  let level := Nat.min li lk in let q := prodl (dropped pp nb level) in
  loopE pp crs n B T (level - nb) q 7 1 (sum cnt (fun k => prodE N pp n B T li lk q 1 (rotE pp crs n B T li (Z.of_nat k * 128)) M)).

Theorem C33_fc1 : forall N pp (crs : crsT N) pscale rs rk w ids s r B T st vec hvec mats hmat bias li lk lb si sk sb nb (phi : R N) psi phib M,
  ready pp crs pscale rs ids s r B T -> (forall a b, order_ok (w a b)) -> pool_ok pp st ->
  (1 <= li < length (Qm pp))%nat -> (1 <= lk < length (Qm pp))%nat -> (lb < length (Qm pp))%nat ->
  input pp ids s vec li si phi -> hoisted_at pp li (cv vec) (Some hvec) -> mats <> nil ->
  (forall k mat, nth_error mats k = Some mat -> input pp ids s mat lk sk (psi k) /\ bnd (psi k) M /\ (exists h, nth_error hmat k = Some h /\ hoisted_at pp lk (cv mat) (Some h)) /\
     rot_avail pp crs rk ids s B T (Z.of_nat k * 128) /\ hoist_avail crs (Z.of_nat k * 128)) ->
  (forall i, (i < 7)%nat -> rot_avail pp crs rk ids s B T (2 ^ Z.of_nat i)) ->
  let level := Nat.min li lk in let q := prodl (dropped pp nb level) in let so := rscale pp level (f_mul si sk) nb in
  f_eq (f_mul si sk) f_zero = false -> divisions pp level (f_mul si sk) (f_div pscale (f_of_int 2)) nb ->
  input pp ids s bias lb sb phib -> so = sb \/ close so sb ->
  exists st' out M', FC1Layer pp crs pscale rs rk w st vec hvec mats hmat bias = Ok (st', out) /\ pool_ok pp st' /\
    result pp ids s out (Nat.min (level - nb) lb) (f_max so sb) q M' (fc1_err pp crs (length ids) B T li lk nb M (length mats)) /\
    forall z, zslot M' z = cadd (csum 128 (fun k => csum (length mats) (fun i => cmul (zslot phi (z + Z.of_nat k + 128 * Z.of_nat i)) (zslot (psi i) (z + Z.of_nat k))))) (cscale q (zslot phib z)).
Proof.
  intros N pp crs pscale rs rk w ids s r B T st vec hvec mats hmat bias li lk lb si sk sb nb phi psi phib M RD OW PO H0 H1 HB IV HV NE HM AV level q so F DV IB SC.
  pose proof (rd_wf _ _ _ _ _ _ _ _ _ RD) as WF. pose proof (pow2N pp WF) as P2. pose proof (proj1 (wf_N _ _ WF)) as N2.
  destruct (term_level pp crs pscale rs ids s r B T RD li lk _ nb H0 H1 DV) as [LV QP]. fold level in LV, QP. fold q in QP.
  destruct mats as [|mat mats]; [contradiction|]. unfold FC1Layer. cbn [fc1Loop].
  destruct (HM 0%nat mat eq_refl) as (A1 & A2 & (h & A3 & A4) & A5 & A6).
  destruct (term_ok pp crs pscale rs rk w ids s r B T RD OW 0 vec hvec mat h (Z.of_nat 0 * 128) li lk si sk nb phi (psi 0%nat) M H0 H1 IV HV A1 A2 A4 A5 A6 F DV) as (t & ht & d & T1 & T2 & T3 & T4).
  fold level in T4. fold q so in T4.
  unfold fc1Term, ckCopyNew at 1. pose proof (proj1 IV) as W. pose proof W as (W1 & W2 & _). destruct (CopyNew_ok (w 0%nat 8%nat 0%nat) (cv vec) (OW 0%nat 8%nat 0%nat) W1 W2) as (v' & V1 & _). rewrite V1. cbn [rbind].
  rewrite T1. cbn [rbind]. rewrite T2. cbn [rbind]. unfold idx. rewrite A3. cbn [rbind]. rewrite T3. cbn [rbind].
  destruct T4 as (D1 & D2 & D3 & p & D4 & D5). pose proof D1 as (D1a & D1b & _). unfold ckCopyNew.
  destruct (CopyNew_ok (w 0%nat 9%nat 0%nat) (cv d) (OW 0%nat 9%nat 0%nat) D1a D1b) as (d' & E1 & E2 & E3). rewrite E1. cbn [rbind].
  assert (RC : result pp ids s (CK d' (csc d)) (level - nb) so q (mul (galois (5 ^ ((Z.of_nat 0 * 128) mod Z.of_nat (N / 2))) phi) (psi 0%nat)) (prodE N pp (length ids) B T li lk q 1 (rotE pp crs (length ids) B T li (Z.of_nat 0 * 128)) M)).
  { split; [apply (wfct_ext pp _ _ (cv d)); assumption|]. split; [exact D2|]. split.
    - intros x Hx. apply D3. cbn [cv] in Hx. apply in_parties in Hx as [X Y]. apply in_parties. split; [exact X|]. apply (mget_In_keys seq_dec). apply (mget_In_keys seq_dec) in Y. rewrite E3 in Y. exact Y.
    - exists p. split; [|exact D5]. intros j Hj. cbn [cv]. rewrite (phase_ext pp s d' (cv d) j) by assumption. apply D4. exact Hj. }
  assert (HM' : forall k mat, nth_error mats k = Some mat -> input pp ids s mat lk sk (psi (1 + k)%nat) /\ bnd (psi (1 + k)%nat) M /\ (exists h, nth_error hmat (1 + k) = Some h /\ hoisted_at pp lk (cv mat) (Some h)) /\
     rot_avail pp crs rk ids s B T (Z.of_nat (1 + k) * 128) /\ hoist_avail crs (Z.of_nat (1 + k) * 128)) by (intros k m' Hk; apply (HM (S k)); exact Hk).
  destruct (fc1Loop_ok pp crs pscale rs rk w ids s r B T RD OW vec hvec hmat li lk si sk nb phi psi M H0 H1 IV HV F DV mats 1%nat st _ _ _ PO HM' RC) as (st1 & c1 & B1 & B2 & B3). rewrite B1. cbn [rbind]. clear B1.
  fold level in B3. fold q so in B3.
  assert (AV' : forall i, (i < 7)%nat -> rot_avail pp crs rk ids s B T (1 * 2 ^ Z.of_nat i)) by (intros i Hi; rewrite Z.mul_1_l; apply AV; exact Hi).
  destruct (loop_ok pp crs pscale rs rk w ids s r B T RD OW 7 1 (length (mat :: mats)) st1 c1 (level - nb) so q _ _ B2 LV AV' QP B3) as (st2 & c2 & L & C1 & C2 & C3 & C4). rewrite C1. cbn [rbind]. clear C1.
  pose proof (input_result pp crs pscale rs ids s r B T RD bias lb sb phib q IB) as RB.
  destruct (add_gen pp crs pscale rs ids s r B T RD (w (length (mat :: mats) + 7)%nat 5%nat) st2 c2 bias _ lb so sb q _ _ _ _ (OW _ 5%nat) C2 LV HB SC C3 RB) as (st3 & c3 & G1 & G2 & G3).
  exists st3, c3, (add L (smul q phib)). split; [exact G1|]. split; [exact G2|]. split.
  - unfold fc1_err. rewrite <- fold_sum. rewrite Z.add_0_r in G3. exact G3.
  - intros z. rewrite (zslot_add N2), (zslot_smul N2), C4. f_equal. apply csum_ext. intros k Hk. rewrite Z.mul_1_l.
    change (add (mul (galois (5 ^ ((Z.of_nat 0 * 128) mod Z.of_nat (N / 2))) phi) (psi 0%nat)) (Lsum (seq 1 (length mats)) (fun k => mul (galois (5 ^ ((Z.of_nat k * 128) mod Z.of_nat (N / 2))) phi) (psi k))))
      with (Lsum (seq 0 (length (mat :: mats))) (fun k => mul (galois (5 ^ ((Z.of_nat k * 128) mod Z.of_nat (N / 2))) phi) (psi k))).
    rewrite zslot_sum by exact N2. apply csum_ext. intros i Hi. rewrite (zslot_mul N2), (zslot_rot P2 N2). do 2 f_equal. lia.
Qed.
Print Assumptions C33_fc1.
(** with no matrix the layer panics *)
Theorem C33_fc1_empty : forall N pp (crs : crsT N) pscale rs rk w st vec hvec hmat bias, FC1Layer pp crs pscale rs rk w st vec hvec nil hmat bias = Panic.
Proof. reflexivity. Qed.

(** FC2Layer: mask, replicate 16 times, multiply, 64 partial sums, a bias *)
Definition fc2_err {N} (pp : rparams) (crs : crsT N) (n : nat) (B T : Z) (lv lk nb nb2 : nat) (M : Z) : Z :=
  let q := prodl (dropped pp nb lv) in let l1 := (lv - nb)%nat in let level := Nat.min l1 lk in let q2 := prodl (dropped pp nb2 level) in
  loopE pp crs n B T (level - nb2) (q2 * q) 6 128 (prodE N pp n B T l1 lk q2 q (loopE pp crs n B T l1 q 4 (-1) (rescE N n T q)) M).

Theorem C33_fc2 : forall N pp (crs : crsT N) pscale rs rk w ids s r B T st vec mat bias mask maskScale lv lk lb sv sk sb nb nb2 (phi wm psi phib : R N) M,
  ready pp crs pscale rs ids s r B T -> (forall a b, order_ok (w a b)) -> pool_ok pp st ->
  (1 <= lv < length (Qm pp))%nat -> (1 <= lk < length (Qm pp))%nat -> (lb < length (Qm pp))%nat -> (nb < lv)%nat ->
  input pp ids s vec lv sv phi -> (lv < length (prows mask))%nat -> (forall j, (j <= lv)%nat -> inr (Qi pp j) (row (prows mask) j)) -> plain_of pp lv mask wm ->
  f_eq (f_mul sv maskScale) f_zero = false -> divisions pp lv (f_mul sv maskScale) (f_div pscale (f_of_int 2)) nb ->
  (forall i, (i < 4)%nat -> rot_avail pp crs rk ids s B T (- 2 ^ Z.of_nat i)) -> (forall i, (i < 6)%nat -> rot_avail pp crs rk ids s B T (128 * 2 ^ Z.of_nat i)) ->
  let q := prodl (dropped pp nb lv) in let s1 := rscale pp lv (f_mul sv maskScale) nb in let level := Nat.min (lv - nb) lk in let q2 := prodl (dropped pp nb2 level) in
  input pp ids s mat lk sk psi -> bnd psi M -> f_eq (f_mul s1 sk) f_zero = false -> divisions pp level (f_mul s1 sk) (f_div pscale (f_of_int 2)) nb2 ->
  let so := rscale pp level (f_mul s1 sk) nb2 in input pp ids s bias lb sb phib -> so = sb \/ close so sb ->
  exists st' out M', FC2Layer pp crs pscale rs rk w st vec mat bias mask maskScale = Ok (st', out) /\ pool_ok pp st' /\
    result pp ids s out (Nat.min (level - nb2) lb) (f_max so sb) (q2 * q) M' (fc2_err pp crs (length ids) B T lv lk nb nb2 M) /\
    forall z, zslot M' z = cadd (csum 64 (fun i => let x := z + 128 * Z.of_nat i in
        cmul (csum 16 (fun k => cmul (zslot wm (x - Z.of_nat k)) (zslot phi (x - Z.of_nat k)))) (zslot psi x))) (cscale (q2 * q) (zslot phib z)).
Proof.
  intros N pp crs pscale rs rk w ids s r B T st vec mat bias mask maskScale lv lk lb sv sk sb nb nb2 phi wm psi phib M RD OW PO H0 H1 HB HN IV LM IM PM F1 DV1 AVa AVb q s1 level q2 IK BM F2 DV2 so IB SC.
  pose proof (rd_wf _ _ _ _ _ _ _ _ _ RD) as WF. pose proof (pow2N pp WF) as P2. pose proof (proj1 (wf_N _ _ WF)) as N2.
  destruct IV as (W & E & I & X). unfold FC2Layer.
  destruct (C30_mul_plaintext N pp (w 0%nat 5%nat) pscale st vec mask maskScale lv nb WF (OW 0%nat 5%nat) PO H0 W LM IM (rd_scale _ _ _ _ _ _ _ _ _ RD)) as (st1 & v & A1 & A2 & A3 & A4 & A5).
  { rewrite E. exact F1. } { rewrite E. exact DV1. }
  rewrite A1. cbn [rbind]. rewrite E. fold s1. assert (Q1 : 1 <= q) by (apply (dropped_pos pp crs pscale rs ids s r B T RD); lia).
  assert (I1 : incl (parties v) ids). { intros x Hx. apply I. apply in_parties. apply in_parties in Hx as [Y1 Y2]. split; [exact Y1|]. apply A4. exact Y2. }
  assert (RV : result pp ids s (CK v s1) (lv - nb) s1 q (mul wm phi) (rescE N (length ids) T q)).
  { split; [exact A3|]. split; [reflexivity|]. split; [exact I1|]. destruct (A5 s T phi wm) as (m' & M1 & M2); [|exact X|exact PM|].
    - intros x Hx. apply (rd_secret _ _ _ _ _ _ _ _ _ RD). apply I. exact Hx.
    - exists m'. split; [exact M2|]. fold q in M1. destruct (rescaled_err pp crs pscale rs ids s r B T RD q _ _ _ Q1 (npar pp ids (cv vec) lv W I) M1) as (E' & S1 & S2).
      rewrite S1. replace (sub (add (mul wm phi) E') (mul wm phi)) with E'; [exact S2|]. apply R_ext. intros i Hi. rewrite co_sub, co_add. lia. }
  assert (AVa' : forall i, (i < 4)%nat -> rot_avail pp crs rk ids s B T (-1 * 2 ^ Z.of_nat i)). { intros i Hi. replace (-1 * 2 ^ Z.of_nat i) with (- 2 ^ Z.of_nat i) by ring. apply AVa; exact Hi. }
  destruct (loop_ok pp crs pscale rs rk w ids s r B T RD OW 4 (-1) 1 st1 (CK v s1) (lv - nb) s1 q _ _ A2 ltac:(lia) AVa' ltac:(lia) RV) as (st2 & c2 & L & C1 & C2 & C3 & C4). rewrite C1. cbn [rbind]. clear C1.
  destruct (mulR_ok pp crs pscale rs ids s r B T RD (w 5%nat 7%nat) c2 mat (lv - nb) lk s1 sk nb2 q _ _ psi M (OW 5%nat 7%nat) ltac:(lia) H1 ltac:(lia) C3 IK BM F2 DV2) as (c3 & D1 & D2). rewrite D1. cbn [rbind]. clear D1.
  fold level in D2. fold q2 so in D2. assert (LV : (level - nb2 < length (Qm pp))%nat) by lia.
  assert (Q2 : 1 <= q2) by (apply (dropped_pos pp crs pscale rs ids s r B T RD); [lia|apply DV2]).
  destruct (loop_ok pp crs pscale rs rk w ids s r B T RD OW 6 128 6 st2 c3 (level - nb2) so (q2 * q) _ _ C2 LV AVb ltac:(nia) D2) as (st4 & c4 & L' & G1 & G2 & G3 & G4). rewrite G1. cbn [rbind]. clear G1.
  pose proof (input_result pp crs pscale rs ids s r B T RD bias lb sb phib (q2 * q) IB) as RB.
  destruct (add_gen pp crs pscale rs ids s r B T RD (w 12%nat 5%nat) st4 c4 bias _ lb so sb (q2 * q) _ _ _ _ (OW _ 5%nat) G2 LV HB SC G3 RB) as (st5 & c5 & K1 & K2 & K3).
  exists st5, c5, (add L' (smul (q2 * q) phib)). split; [exact K1|]. split; [exact K2|]. split.
  - rewrite Z.add_0_r in K3. exact K3.
  - intros z. rewrite (zslot_add N2), (zslot_smul N2), G4. f_equal. apply csum_ext. intros k Hk. cbn zeta. rewrite (zslot_mul N2), C4. f_equal. apply csum_ext. intros i Hi. rewrite (zslot_mul N2). do 2 f_equal; f_equal; lia.
Qed.
Print Assumptions C33_fc2.

(** ** A concrete case: two parties, three moduli, the rotation amounts 1, 2, 3 in the CRS (4 slots) *)
Definition ex_crs3 : crsT 8 := (3, crs_entry ex_pp (ex_u 3)) :: ex_crs.
Definition ex_rlk3 (id : string) : relinKey 8 := match GenRelinearizationKey ex_pp ex_crs3 (ex_sk id) (ex_sk id) ex_smp ex_smp ex_smp with Ok k => k | Panic => RLK id nil nil nil end.
Definition ex_rtk3 (i : Z) (id : string) : rotKey 8 := match GenRotationKey ex_pp ex_crs3 i (ex_sk id) ex_smp with Ok k => k | Panic => RTK id 0 nil end.
Definition ex_rs3 : rlkset 8 := map (fun id => (id, ex_rlk3 id)) ["bob"; "alice"]%string.
Definition ex_rk3 : rotset 8 := map (fun id => (id, [(1, ex_rtk3 1 id); (2, ex_rtk3 2 id); (3, ex_rtk3 3 id)])) ["bob"; "alice"]%string.
Lemma ex_crs3_get i : In i [0; -1; 1; 2; 3] -> mget Z.eq_dec ex_crs3 i = Some (crs_entry ex_pp (ex_u i)) /\ crs_ok ex_pp (crs_entry ex_pp (ex_u i)).
Proof.
  intros H. split.
  - cbn [In] in H. repeat (destruct H as [<-|H]; [reflexivity|]). destruct H.
  - apply (crs_entry_ok ex_pp ex_wf). intros k Hk. assert (B : beta ex_pp (maxLevel ex_pp) = 2%nat) by (vm_compute; reflexivity). rewrite B in Hk.
    intros [j|j] V x Hx; cbn in V; cbn [fqp ex_u qpQ qpP]; unfold row; rewrite nth_tab by lia; rewrite co_mkR by assumption; cbn [In] in H; unfold W; lia.
Qed.
Lemma ex_ids_2 id : In id ["alice"; "bob"]%string -> id = "alice"%string \/ id = "bob"%string.
Proof. intros H. cbn in H. intuition. Qed.
Lemma ex_ready3 : ready ex_pp ex_crs3 (f_of_int 200) ex_rs3 ["alice"; "bob"]%string (fun _ => ex_s) (fun _ => ex_s) 3 1.
Proof.
  assert (SB : bnd ex_s 1) by (apply bnd_poly; [lia|reflexivity]).
  assert (SM : forall k, is_sample ex_pp 3 (ex_e k) (ex_smp k)) by (intros k; apply ex_e_sample).
  assert (I0 : In 0 [0; -1; 1; 2; 3]) by (cbn; tauto). assert (I1 : In (-1) [0; -1; 1; 2; 3]) by (cbn; tauto).
  constructor; [exact ex_wf|exact ex_small|lia|lia| | | | |vm_compute; reflexivity].
  - repeat constructor; cbn; intuition discriminate.
  - eexists _, _. split; [exact (proj1 (ex_crs3_get 0 I0))|]. split; [exact (proj1 (ex_crs3_get (-1) I1))|]. split; [exact (proj2 (ex_crs3_get 0 I0))|exact (proj2 (ex_crs3_get (-1) I1))].
  - intros id Hid. exists (ex_sk id), (ex_sk id), ex_smp, ex_smp, ex_smp, ex_e, ex_e, ex_e, (ex_rlk3 id). split; [apply ex_sk_val|]. split; [apply ex_sk_val|]. split; [exact SB|]. split; [exact SB|].
    split; [intros k _; split; [|split]; apply SM|]. split.
    + destruct (GenRelinearizationKey_ok ex_pp ex_wf 3 ex_e ex_e ex_e ex_smp ex_smp ex_smp ex_crs3 _ _ (ex_sk id) (ex_sk id) ex_s ex_s ex_small (fun k _ => conj (SM k) (conj (SM k) (SM k))) (ex_sk_val id) (ex_sk_val id) (proj1 (ex_crs3_get 0 I0)) (proj1 (ex_crs3_get (-1) I1)) (proj2 (ex_crs3_get 0 I0)) (proj2 (ex_crs3_get (-1) I1))) as (key & X & _).
      unfold ex_rlk3. rewrite X. reflexivity.
    + destruct (ex_ids_2 id Hid) as [->| ->]; reflexivity.
  - intros _ _. exact SB.
Qed.
Lemma ex_rot3 k : rot_avail ex_pp ex_crs3 ex_rk3 ["alice"; "bob"]%string (fun _ => ex_s) 3 1 k /\ hoist_avail ex_crs3 k.
Proof.
  assert (SB : bnd ex_s 1) by (apply bnd_poly; [lia|reflexivity]). assert (SM : forall k, is_sample ex_pp 3 (ex_e k) (ex_smp k)) by (intros k'; apply ex_e_sample).
  unfold rot_avail, hoist_avail. cbv zeta. change (Z.of_nat (8 / 2)) with 4. pose proof (Z.mod_pos_bound k 4 ltac:(lia)) as KB. set (r := k mod 4) in *. clearbody r. clear k.
  assert (D : r = 0 \/ (In r [0; -1; 1; 2; 3] /\ 0 < r)) by (cbn [In]; lia). destruct D as [->|[I Ip]]; [split; [intros i H; contradiction|left; reflexivity]|].
  destruct (ex_crs3_get r I) as [G C]. split; [|right; rewrite G; discriminate].
  intros i _ [[_ ->]|[X _]]; [|congruence]. split; [eexists; split; [exact G|exact C]|]. intros id Hid.
  exists (ex_sk id), ex_smp, ex_e, (ex_rtk3 r id). split; [apply ex_sk_val|]. split; [exact SB|]. split; [intros k _; apply SM|]. split.
  - destruct (GenRotationKey_ok ex_pp ex_wf 3 ex_e ex_smp ex_crs3 r _ r (crs_entry ex_pp (ex_u r)) (ex_sk id) ex_s ex_small (fun k _ => SM k) (ex_sk_val id) G) as (key & X & _).
    + destruct (Z.ltb_spec r 0); [lia|reflexivity].
    + exact G.
    + exact C.
    + unfold ex_rtk3. rewrite X. reflexivity.
  - assert (DD : r = 1 \/ r = 2 \/ r = 3) by lia. destruct (ex_ids_2 id Hid) as [->| ->]; destruct DD as [->|[->| ->]]; reflexivity.
Qed.
Lemma sum_term n (f : nat -> Z) i : (forall i, 0 <= f i) -> (i < n)%nat -> f i <= sum n f.
Proof.
  intros P. induction n as [|n IH]; intros Hi; [lia|]. cbn [sum]. assert (0 <= sum n f) by (clear IH Hi; induction n as [|n IH]; cbn [sum]; [lia|specialize (P n); lia]).
  destruct (Nat.eq_dec i n) as [->|NE]; [lia|]. specialize (IH ltac:(lia)). specialize (P n). lia.
Qed.
Lemma bnd_some N (m : R N) : exists M, bnd m M.
Proof. exists (sum N (fun i => Z.abs (co m i))). intros i Hi. apply (sum_term N (fun i => Z.abs (co m i)) i); [intros; lia|exact Hi]. Qed.
Definition sc256 : f64 := f_of_int 256.
Lemma ex_input3 n l sc : (0 < n <= 3)%nat -> l = ["alice"]%string \/ l = ["alice"; "bob"]%string ->
  exists m M h, input ex_pp ["alice"; "bob"]%string (fun _ => ex_s) (CK (ex_ct n l) sc) (n - 1) sc m /\ bnd m M /\ hoisted_at ex_pp (n - 1) (ex_ct n l) (Some h).
Proof.
  intros Hn Hl. assert (HL : (n - 1 < length (Qm ex_pp))%nat) by (change (length (Qm ex_pp)) with 3%nat; lia).
  assert (W : wfct ex_pp (n - 1) false (ex_ct n l)) by (apply ex_ct_wf; [exact Hn|destruct Hl as [->| ->]; [exact ex_nd1|exact ex_nd2]]).
  destruct (decrypts_some 8 ex_pp (fun _ => ex_s) (ex_ct n l) (n - 1) ex_wf HL) as [m Hm]. destruct (bnd_some 8 m) as [M HM].
  destruct (hoistedForm_ok ex_pp ex_crs3 (f_of_int 200) ex_rs3 _ _ _ 3 1 ex_ready3 ex_ord (CK (ex_ct n l) sc) (n - 1) ex_ord_ok HL W) as (h & _ & H2).
  exists m, M, h. split; [|split; [exact HM|exact H2]]. split; [exact W|]. split; [reflexivity|]. split; [|exact Hm].
  intros x Hx. apply in_parties in Hx as [X Y]. cbn [In]. destruct Hl as [->| ->]; [change (In x (id0 :: ["alice"]%string)) in Y|change (In x (id0 :: ["alice"; "bob"]%string)) in Y]; cbn [In] in Y; intuition congruence.
Qed.
Example C33_nonvacuous : exists (img mat : ckct 8) himg hmat, let st := NewEvaluator ex_pp in let w := fun _ _ => ex_ord in
  (exists st' out, Convolution ex_pp ex_crs3 (f_of_int 200) ex_rs3 ex_rk3 w st img himg [mat; mat; mat; mat] [hmat; hmat; hmat; hmat] = Ok (st', out)) /\
  (exists st' out, FC1Layer ex_pp ex_crs3 (f_of_int 200) ex_rs3 ex_rk3 w st img himg [mat; mat; mat] [hmat; hmat; hmat] (CK (ex_ct 1 ["alice"; "bob"]%string) (rscale ex_pp 2 (f_mul sc256 sc256) 1)) = Ok (st', out)) /\
  (exists st' out, FC2Layer ex_pp ex_crs3 (f_of_int 200) ex_rs3 ex_rk3 w st img mat (CK (ex_ct 1 ["alice"; "bob"]%string) (rscale ex_pp 2 (f_mul (f_mul sc256 (f_of_int 1)) sc256) 1)) (ex_pt false) (f_of_int 1) = Ok (st', out)).
Proof.
  destruct (ex_input3 3 ["alice"]%string sc256 ltac:(lia) (or_introl eq_refl)) as (mi & Mi & hi & I1 & I2 & I3).
  destruct (ex_input3 3 ["alice"; "bob"]%string sc256 ltac:(lia) (or_intror eq_refl)) as (mm & Mm & hm & M1 & M2 & M3).
  destruct (ex_input3 1 ["alice"; "bob"]%string (rscale ex_pp 2 (f_mul sc256 sc256) 1) ltac:(lia) (or_intror eq_refl)) as (mb & _ & _ & B1 & _).
  destruct (ex_input3 1 ["alice"; "bob"]%string (rscale ex_pp 2 (f_mul (f_mul sc256 (f_of_int 1)) sc256) 1) ltac:(lia) (or_intror eq_refl)) as (mc & _ & _ & C1 & _).
  change (3 - 1)%nat with 2%nat in *. change (1 - 1)%nat with 0%nat in *.
  exists (CK (ex_ct 3 ["alice"]%string) sc256), (CK (ex_ct 3 ["alice"; "bob"]%string) sc256), hi, hm. cbv zeta.
  assert (L3 : length (Qm ex_pp) = 3%nat) by reflexivity.
  assert (OW : forall a b : nat, order_ok ((fun _ _ => ex_ord) a b : IdSetModel.order)) by (intros _ _; exact ex_ord_ok).
  assert (F : f_eq (f_mul sc256 sc256) f_zero = false) by (vm_compute; reflexivity).
  assert (DV : divisions ex_pp 2 (f_mul sc256 sc256) (f_div (f_of_int 200) (f_of_int 2)) 1).
  { split; [lia|]. split; [|vm_compute; reflexivity]. intros i Hi. destruct i; [vm_compute; reflexivity|lia]. }
  split; [|split].
  - destruct (C33_convolution 8 ex_pp ex_crs3 (f_of_int 200) ex_rs3 ex_rk3 (fun _ _ => ex_ord) _ _ _ 3 1 (NewEvaluator ex_pp) _ hi
      [CK (ex_ct 3 ["alice"; "bob"]%string) sc256; CK (ex_ct 3 ["alice"; "bob"]%string) sc256; CK (ex_ct 3 ["alice"; "bob"]%string) sc256; CK (ex_ct 3 ["alice"; "bob"]%string) sc256] [hm; hm; hm; hm]
      2 2 sc256 sc256 1 mi (fun _ => CK (ex_ct 3 ["alice"; "bob"]%string) sc256) (fun _ => hm) (fun _ => mm) Mm ex_ready3 OW ex_pool ltac:(lia) ltac:(lia) I1 I3) as (st' & out & M' & X & _).
    + intros i Hi. do 4 (destruct i as [|i]; [split; [reflexivity|]; split; [reflexivity|]; split; [exact M1|]; split; [exact M2|exact M3]|]). lia.
    + intros k _. apply ex_rot3.
    + apply ex_rot3.
    + apply ex_rot3.
    + exact F.
    + exact DV.
    + exists st', out. exact X.
  - destruct (C33_fc1 8 ex_pp ex_crs3 (f_of_int 200) ex_rs3 ex_rk3 (fun _ _ => ex_ord) _ _ _ 3 1 (NewEvaluator ex_pp) _ hi
      [CK (ex_ct 3 ["alice"; "bob"]%string) sc256; CK (ex_ct 3 ["alice"; "bob"]%string) sc256; CK (ex_ct 3 ["alice"; "bob"]%string) sc256] [hm; hm; hm] (CK (ex_ct 1 ["alice"; "bob"]%string) (rscale ex_pp 2 (f_mul sc256 sc256) 1))
      2 2 0 sc256 sc256 (rscale ex_pp 2 (f_mul sc256 sc256) 1) 1 mi (fun _ => mm) mb Mm ex_ready3 OW ex_pool ltac:(lia) ltac:(lia) ltac:(lia) I1 I3) with (6 := B1) as (st' & out & M' & X & _).
    + discriminate.
    + intros k mat Hk. destruct k as [|[|[|k]]]; cbn [nth_error] in Hk; [| | |destruct k; discriminate Hk];
        (injection Hk as <-; split; [exact M1|]; split; [exact M2|]; split; [exists hm; split; [reflexivity|exact M3]|apply ex_rot3]).
    + intros i _. apply ex_rot3.
    + exact F.
    + exact DV.
    + left. reflexivity.
    + exists st', out. exact X.
  - destruct C30_nonvacuous as (N1 & N2 & N3 & _).
    assert (ES : rscale ex_pp 2 (f_mul sc256 (f_of_int 1)) 0 = f_mul sc256 (f_of_int 1)) by reflexivity.
    destruct (C33_fc2 8 ex_pp ex_crs3 (f_of_int 200) ex_rs3 ex_rk3 (fun _ _ => ex_ord) _ _ _ 3 1 (NewEvaluator ex_pp) _ (CK (ex_ct 3 ["alice"; "bob"]%string) sc256) (CK (ex_ct 1 ["alice"; "bob"]%string) (rscale ex_pp 2 (f_mul (f_mul sc256 (f_of_int 1)) sc256) 1)) (ex_pt false) (f_of_int 1)
      2 2 0 sc256 sc256 (rscale ex_pp 2 (f_mul (f_mul sc256 (f_of_int 1)) sc256) 1) 0 1 mi _ mm mc Mm ex_ready3 OW ex_pool ltac:(lia) ltac:(lia) ltac:(lia) ltac:(lia) I1 N1 N2 N3) with (9 := C1) as (st' & out & M' & X & _).
    + vm_compute; reflexivity.
    + split; [lia|]. split; [intros i Hi; lia|vm_compute; reflexivity].
    + intros i _. apply ex_rot3.
    + intros i _. apply ex_rot3.
    + exact M1.
    + exact M2.
    + vm_compute; reflexivity.
    + split; [cbn; lia|]. split; [|vm_compute; reflexivity]. intros i Hi. destruct i; [vm_compute; reflexivity|lia].
    + left. reflexivity.
    + exists st', out. exact X.
Qed.
