(** C48: every client program over the mkckks evaluator computes, on the complex slots, what it stands for, within explicit error bounds.
    Programs, their meaning on slots and the bounds are in CkksCircuit.v; slots in PropsSlots.v and CkksSlots.v. *)
From Flocq Require Import Core BinarySingleNaN.
From Coq Require Import Znumtheory Setoid Morphisms Reals Lra.
From Verif Require Import Base IdSetModel IdSetSpec IdSetProofs KeySetModel NumTheory Negacyclic Ntt Word BasisExt BasisExtProofs DecompProofs BasisSpec Rows RlweModel KeyGenModel SchemeSpec ExtProd ExtProps Galois KeyGenProofs Instance CtModel CtSpec CtProofs EncDecProofs EncMsgModel HeapModel HeapProofs PropsEnc KeySwitchModel Digits KsLoops RotProofs ConjProofs MulProofs PropsKeySwitch PropsRotate FloatModel CkksFloat CkksModel FloatProofs CkksFloatProofs CkksProofs CkksRescale PropsCkks PropsRescale PropsMulRelin BfvCross EncFresh Slots PropsSlots CkksSlots SlotNorm CkksCircuit.
Open Scope Z_scope.

Lemma fpos_le0 x : fpos x -> f_le x f_zero = false.
Proof. intros [F P]. destruct (f_le x f_zero) eqn:E; [|reflexivity]. apply (f_le_ok x f_zero F eq_refl) in E. cbn in E. lra. Qed.
Lemma fpos_eq0 x : fpos x -> f_eq x f_zero = false.
Proof.
  intros H. pose proof (fpos_le0 x H) as E. unfold f_le, f_eq in *. destruct (Bcompare x f_zero) as [[]|]; congruence.
Qed.
Lemma fpos_max x y : fpos x -> fpos y -> fpos (f_max x y).
Proof. intros. unfold f_max. destruct (f_ge x y); assumption. Qed.
Lemma bnd_smul0 {N} z (a : R N) A : 0 <= z -> bnd a A -> bnd (smul z a) (z * A).
Proof. intros H B. replace (z * A) with (Z.abs z * A) by (rewrite Z.abs_eq by exact H; reflexivity). apply bnd_smul. exact B. Qed.

(** mkckks ConjugateNew *)
Theorem C24_conjugate_new : forall N pp (o : IdSetModel.order) crs (c : ckct N) ck (s : string -> R N) a B T,
  wfp N pp -> order_ok o -> small_ok pp B -> wfct pp (maxLevel pp) false (cv c) -> mget Z.eq_dec crs (-2) = Some a -> crs_ok pp a ->
  (forall id, In id (parties (cv c)) -> has_conj_key pp crs ck B T id (s id)) ->
  exists v E, ConjugateNew pp o crs c ck = Ok (CK v (csc c)) /\ wfct pp (maxLevel pp) false v /\ (forall x, In x (keys v) <-> In x (keys (cv c))) /\
    bnd E (Z.of_nat (length (parties (cv c))) * switch_noise N pp (maxLevel pp) (dig_bound pp (maxLevel pp)) B T) /\
    forall j, (j <= maxLevel pp)%nat -> eqm (mq (Qi pp j)) (phase pp s v j) (add (galois (-1) (phase pp s (cv c) j)) E).
Proof.
  intros N pp o crs c ck s a B T WF O SM W GA CA HK. unfold ConjugateNew.
  destruct (IDSetOf_ok (o 60%nat) (cv c)) as (ids & I1 & _ & I3); [intros l; apply O|]. rewrite I1. cbn [rbind]. rewrite (wfct_level pp _ _ _ W). cbn [rbind].
  assert (HL : (maxLevel pp < length (Qm pp))%nat) by (pose proof (wf_Qpos _ _ WF); unfold maxLevel; lia).
  destruct (C03_new_ciphertext N pp (o 61%nat) ids (maxLevel pp) WF (fun l => O 61%nat l) HL) as (NW & NK & _). set (out := NewCiphertext (o 61%nat) ids (maxLevel pp)) in *.
  assert (KO : forall x, In x (keys out) <-> In x (keys (cv c))).
  { intros x. rewrite NK. assert (X : In x (keys ids) <-> x <> id0 /\ In x (keys (cv c))) by (rewrite <- I3; unfold is_has; rewrite mhas_In; reflexivity). rewrite X.
    split; [intros [->|H]; [apply W|tauto]|]. intros H. destruct (string_dec x id0); tauto. }
  destruct (C24_conjugate N pp o crs (cv c) ck out s a B T WF O SM W NW KO GA CA HK) as (v & E & A1 & A2 & A3 & A4 & A5).
  exists v, E. rewrite A1. cbn [rbind]. split; [reflexivity|]. split; [exact A2|]. split; [exact A3|]. split; assumption.
Qed.
Print Assumptions C24_conjugate_new.

Section Circuit.
  Context {N : nat} (pp : rparams) (WF : wfp N pp) (pscale : f64) (PS : fpos pscale).
  Notation P := (R N). Notation ct := (ckct N). Notation L := (maxLevel pp).
  Variables (crs : crsT N) (rs : rlkset N) (rk : rotset N) (ck : conjset N) (s r : string -> P) (B T : Z) (SM : small_ok pp B) (pids : list string).

  (** what a call needs: the evaluation keys of all parties in [pids]; for MulPtxtNew, which rescales, only that the secrets are bounded by T *)
  Definition k_relin : Prop := exists a u, mget Z.eq_dec crs 0 = Some a /\ mget Z.eq_dec crs (-1) = Some u /\ crs_ok pp a /\ crs_ok pp u /\
    forall id, In id pids -> has_relin_key pp crs rs B T id (s id) (r id).
  Definition k_rot (k : Z) : Prop := let q := k mod Z.of_nat (N / 2) in
    forall i, q <> 0 -> used_index crs q i -> (exists a, mget Z.eq_dec crs i = Some a /\ crs_ok pp a) /\ forall id, In id pids -> has_rot_key pp crs rk i B T id (s id).
  Definition k_conj : Prop := (exists a, mget Z.eq_dec crs (-2) = Some a /\ crs_ok pp a) /\ forall id, In id pids -> has_conj_key pp crs ck B T id (s id).
  Definition kready (i : kinstr) : Prop :=
    match i with KMul _ _ => k_relin | KRot _ k => k_rot k | KConj _ => k_conj | KPt _ _ => forall id, In id pids -> bnd (s id) T | _ => True end.

  (** a register described by t holds z: a ciphertext of exactly the parties [kids t] at level [klev t] with scale [ksc t] that decrypts to a polynomial with
      coefficients at most [kM t], whose slots divided by the scale are within [keps t] of z *)
  Definition kreg (c : ct) (t : kinfo) (z : slots) : Prop :=
    wfct pp (klev t) false (cv c) /\ (klev t < length (Qm pp))%nat /\ csc c = ksc t /\ fpos (ksc t) /\ (forall x, In x (parties (cv c)) <-> In x (kids t)) /\ NoDup (kids t) /\ incl (kids t) pids /\
    exists m, decrypts pp s (cv c) (klev t) m /\ bnd m (kM t) /\ near m (B2R (ksc t)) z (kmu t) (keps t).
  (** a plaintext described by t that holds z *)
  Definition kplainreg (q : poly N * f64) (t : kpinfo) (z : slots) : Prop :=
    length (prows (fst q)) = length (Qm pp) /\ (forall j, (j < length (Qm pp))%nat -> inr (Qi pp j) (row (prows (fst q)) j)) /\ snd q = psc t /\ fpos (psc t) /\
    exists w, plain_of pp L (fst q) w /\ bnd w (pM t) /\ near w (B2R (psc t)) z (pmu t) (peps t).

  Lemma NP : (0 < N)%nat. Proof using WF. pose proof (proj1 (wf_N _ _ WF)). lia. Qed.
  Lemma kreg_len c t z : kreg c t z -> length (parties (cv c)) = length (kids t).
  Proof using. intros (W & _ & _ & _ & K & ND & _). apply Permutation_length. apply NoDup_Permutation; [apply parties_nodup; apply W|exact ND|exact K]. Qed.
  Lemma k_union (c0 c1 v : ctT N) ids0 ids1 : (forall x, In x (parties c0) <-> In x ids0) -> (forall x, In x (parties c1) <-> In x ids1) -> (forall x, In x (keys v) <-> In x (keys c0) \/ In x (keys c1)) ->
    forall x, In x (parties v) <-> In x (nodup string_dec (ids0 ++ ids1)).
  Proof using. clear. intros H0 H1 K x. rewrite nodup_In, in_app_iff, <- H0, <- H1, !in_parties, K. tauto. Qed.
  Lemma k_same (c v : ctT N) ids : (forall x, In x (parties c) <-> In x ids) -> (forall x, In x (keys v) <-> In x (keys c)) -> forall x, In x (parties v) <-> In x ids.
  Proof using. clear. intros H K x. rewrite <- H, !in_parties, K. reflexivity. Qed.
  Lemma k_incl ids0 ids1 : incl ids0 pids -> incl ids1 pids -> incl (nodup string_dec (ids0 ++ ids1)) pids.
  Proof using. clear. intros H0 H1 x Hx. apply nodup_In in Hx. apply in_app_iff in Hx as [Hx|Hx]; auto. Qed.
  Lemma decrypts_le c l l' (m : P) : (l' <= l)%nat -> decrypts pp s c l m -> decrypts pp s c l' m.
  Proof using. clear. intros H D j Hj. apply D. lia. Qed.

  (** what the rescaling after a product does to the bounds *)
  Lemma prod_ok D n e (m0 m1 m' E1 : P) s0 s1 sg z0 z1 M0 M1 mu0 mu1 e0 e1 : 1 <= D -> (0 < s0)%R -> (0 < s1)%R -> (0 < sg)%R -> near m0 s0 z0 mu0 e0 -> near m1 s1 z1 mu1 e1 ->
    bnd m0 M0 -> bnd m1 M1 -> bnd E1 e -> rescaled D n T (add (mul m0 m1) E1) m' -> let e2 := 2 * e + round2 N T D n in
    bnd m' ((2 * (Z.of_nat N * M0 * M1) + e2) / (2 * D)) /\
    near m' sg (fun j => cmul (z0 j) (z1 j)) (mu0 * mu1) (prod_eps mu0 e0 mu1 e1 + Rabs (s0 * s1 / (IZR D * sg) - 1) * (mu0 * mu1 + prod_eps mu0 e0 mu1 e1) + INR N * IZR e2 / (2 * IZR D * sg)).
  Proof using WF.
    intros HD P0 P1 P2 N0 N1 B0 B1 BE (E & EQ & HB) e2.
    assert (EQ2 : smul (2 * D) m' = add (smul 2 (mul m0 m1)) (add (smul 2 E1) (smul 2 E))).
    { apply R_ext. intros i Hi. apply (f_equal (fun r => co r i)) in EQ. rewrite ?co_add, ?co_smul, ?co_add, ?co_smul in *. lia. }
    assert (BX : bnd (add (smul 2 E1) (smul 2 E)) e2) by (apply bnd_add; [apply bnd_smul0; [lia|exact BE]|exact HB]).
    split.
    - apply bnd_div; [lia|]. rewrite EQ2. apply bnd_add; [apply bnd_smul0; [lia|apply bnd_mul; assumption]|exact BX].
    - apply (near_mul NP D e2 m0 m1 m' (add (smul 2 E1) (smul 2 E))); trivial. lia.
  Qed.

  Lemma kcall_ok (o : nat -> IdSetModel.order) st (pts : list (poly N * f64)) (pis : list kpinfo) (zpts : list slots) (i : kinstr) (regs : list ct) (ts : list kinfo) (zs : list slots) t :
    (forall n, order_ok (o n)) -> pool_ok pp st -> kready i -> kstep N pp pscale crs B T pis ts i t -> length ts = length regs ->
    (forall a c ti, nth_error regs a = Some c -> nth_error ts a = Some ti -> kreg c ti (nth a zs zslots)) ->
    (forall p q, nth_error pis p = Some q -> exists x, nth_error pts p = Some x /\ kplainreg x q (nth p zpts zslots)) ->
    exists st' c, kcall pp pscale crs rs rk ck pts o st regs i = Ok (st', c) /\ pool_ok pp st' /\ kreg c t (kplain N zpts i zs).
  Proof using WF PS SM.
    intros O PO HR ST LT HI HP.
    assert (GET : forall a ti, nth_error ts a = Some ti -> exists c, BasisExt.idx (A := ct) regs a = Ok c /\ nth_error regs a = Some c /\ kreg c ti (nth a zs zslots)).
    { intros a ti Ha. destruct (nth_error regs a) as [c|] eqn:E.
      - exists c. unfold BasisExt.idx. rewrite E. split; [reflexivity|]. split; [reflexivity|]. apply (HI a); assumption.
      - apply nth_error_None in E. assert (nth_error ts a <> None) by congruence. apply nth_error_Some in H. lia. }
    destruct ST as [i j a b Hi Hj R1 R2|i j a b Hi Hj R1 R2|i j a b nb Hi Hj L0 L1 level scale D ids F1 DV F2|i k a Hi|i a Hi LV|i p a q nb Hi Hp L0 scale D F1 DV F2|i p a q Hi Hp L0 F1|i n a Hi Hn]; cbn [kready] in HR.
    - (* AddNew *)
      destruct (GET i a Hi) as (x & Gx & _ & W0 & H0 & S0 & F0 & K0 & N0 & I0 & m0 & D0 & B0 & Z0). destruct (GET j b Hj) as (y & Gy & _ & W1 & H1 & S1 & F1 & K1 & N1 & I1 & m1 & D1 & B1 & Z1).
      destruct (C19_add N pp (o 0%nat) st x y (klev a) (klev b) WF (O 0%nat) PO H0 H1 W0 W1) as (st' & v & A1 & A2 & A3 & A4 & A5); rewrite ?S0, ?S1; try assumption; try apply F0; try apply F1.
      unfold kcall. rewrite Gx. cbn [rbind]. rewrite Gy. cbn [rbind]. exists st', (CK v (f_max (csc x) (csc y))). split; [exact A1|]. split; [exact A2|]. rewrite S0, S1 in *. unfold sum_info, kreg. cbn [kids klev ksc kM kmu keps csc cv].
      split; [exact A3|]. split; [lia|]. split; [reflexivity|]. split; [apply fpos_max; assumption|]. split; [apply (k_union (cv x) (cv y)); assumption|]. split; [apply NoDup_nodup|]. split; [apply k_incl; assumption|].
      assert (AF : forall u w, 0 <= align_factor u w) by (intros; unfold align_factor; lia).
      exists (add (smul (align_factor (ksc a) (ksc b)) m0) (smul (align_factor (ksc b) (ksc a)) m1)). split; [|split].
      + intros q Hq. eapply eqm_trans; [apply A5; exact Hq|]. rewrite !smul_cst. apply eqm_add; apply eqm_mul; try apply eqm_refl; [apply D0|apply D1]; lia.
      + apply bnd_add; apply bnd_smul0; trivial.
      + apply (near_add NP); trivial; try apply F0; try apply F1. apply (fpos_max _ _ F0 F1).
    - (* SubNew *)
      destruct (GET i a Hi) as (x & Gx & _ & W0 & H0 & S0 & F0 & K0 & N0 & I0 & m0 & D0 & B0 & Z0). destruct (GET j b Hj) as (y & Gy & _ & W1 & H1 & S1 & F1 & K1 & N1 & I1 & m1 & D1 & B1 & Z1).
      destruct (C19_sub N pp (o 0%nat) st x y (klev a) (klev b) WF (O 0%nat) PO H0 H1 W0 W1) as (st' & v & A1 & A2 & A3 & A4 & A5); rewrite ?S0, ?S1; try assumption; try apply F0; try apply F1.
      unfold kcall. rewrite Gx. cbn [rbind]. rewrite Gy. cbn [rbind]. exists st', (CK v (f_max (csc x) (csc y))). split; [exact A1|]. split; [exact A2|]. rewrite S0, S1 in *. unfold sum_info, kreg. cbn [kids klev ksc kM kmu keps csc cv].
      split; [exact A3|]. split; [lia|]. split; [reflexivity|]. split; [apply fpos_max; assumption|]. split; [apply (k_union (cv x) (cv y)); assumption|]. split; [apply NoDup_nodup|]. split; [apply k_incl; assumption|].
      assert (AF : forall u w, 0 <= align_factor u w) by (intros; unfold align_factor; lia).
      exists (sub (smul (align_factor (ksc a) (ksc b)) m0) (smul (align_factor (ksc b) (ksc a)) m1)). split; [|split].
      + intros q Hq. eapply eqm_trans; [apply A5; exact Hq|]. rewrite !smul_cst. apply eqm_sub; apply eqm_mul; try apply eqm_refl; [apply D0|apply D1]; lia.
      + apply bnd_sub; apply bnd_smul0; trivial.
      + apply (near_sub NP); trivial; try apply F0; try apply F1. apply (fpos_max _ _ F0 F1).
    - (* MulRelinNew *)
      destruct (GET i a Hi) as (x & Gx & Ex & RX). destruct (GET j b Hj) as (y & Gy & Ey & RY). pose proof (kreg_len _ _ _ RX) as LX. pose proof (kreg_len _ _ _ RY) as LY.
      destruct RX as (W0 & H0 & S0 & F0 & K0 & N0 & I0 & m0 & D0 & B0 & Z0). destruct RY as (W1 & H1 & S1 & FY & K1 & N1 & I1 & m1 & D1 & B1 & Z1). destruct HR as (ca & cu & GA & GU & CA & CU & HK).
      destruct (C44_mul_relin_new N pp (o 0%nat) crs pscale x y (i =? j)%nat rs s r ca cu B T (klev a) (klev b) nb WF (O 0%nat) SM) as (v & A1 & A2 & A3 & A4); rewrite ?S0, ?S1; trivial; try (split; assumption).
      { intros E. apply Nat.eqb_eq in E. subst j. congruence. }
      { intros id [Hid|Hid]; apply HK; [apply I0; apply K0|apply I1; apply K1]; exact Hid. }
      { apply fpos_le0. exact PS. }
      { apply fpos_eq0. exact F1. }
      rewrite S0, S1 in A1. fold level in A1, A2. fold scale in A1. assert (LD : (nb <= level)%nat) by apply DV. assert (LL : (level < length (Qm pp))%nat) by (unfold level; lia).
      unfold kcall. rewrite Gx. cbn [rbind]. rewrite Gy. cbn [rbind]. rewrite A1. cbn [rbind]. exists st, (CK v (rscale pp level scale nb)). split; [reflexivity|]. split; [exact PO|]. unfold prod_info, kreg. cbn [kids klev ksc kM kmu keps csc cv].
      assert (KV : forall z, In z (parties v) <-> In z ids) by (apply (k_union (cv x) (cv y)); assumption).
      assert (NDI : NoDup ids) by apply NoDup_nodup.
      split; [exact A2|]. split; [lia|]. split; [reflexivity|]. split; [exact F2|]. split; [exact KV|]. split; [exact NDI|]. split; [apply k_incl; assumption|].
      destruct A4 as (E & BE & A4). destruct (A4 m0 m1) as (m' & RS & DM); [apply (decrypts_le _ (klev a)); [lia|exact D0]|apply (decrypts_le _ (klev b)); [lia|exact D1]|]. fold level in RS, DM, BE.
      assert (LV : length (parties v) = length ids) by (apply Permutation_length; apply NoDup_Permutation; [apply parties_nodup; apply A2|exact NDI|exact KV]). rewrite LV in RS. fold D in RS.
      assert (D1' : 1 <= D) by (apply (dropped_pos pp WF); trivial). rewrite LX, LY in BE. exists m'. split; [exact DM|].
      exact (prod_ok D (length ids) _ m0 m1 m' E _ _ _ _ _ _ _ _ _ _ _ D1' (proj2 F0) (proj2 FY) (proj2 F2) Z0 Z1 B0 B1 BE RS).
    - (* RotateNew *)
      destruct (GET i a Hi) as (x & Gx & _ & RX). pose proof (kreg_len _ _ _ RX) as LX. destruct RX as (W0 & H0 & S0 & F0 & K0 & N0 & I0 & m0 & D0 & B0 & Z0).
      pose proof (proj1 (wf_N _ _ WF)) as N2. assert (NH : (1 <= N / 2)%nat) by (pose proof (Nat.div_le_mono 2 N 2 ltac:(lia) N2); change (2 / 2)%nat with 1%nat in *; lia).
      assert (Q0 : 0 <= k mod Z.of_nat (N / 2)) by (apply Z.mod_pos_bound; lia).
      destruct (C23_rotate_new N pp o crs x k rk s B T (klev a) WF O SM H0 W0) as (v & E & A1 & A2 & A3 & A4 & A5).
      { intros u NZ U. apply (HR u NZ U). }
      { intros u id NZ U Hid. apply (HR u NZ U). apply I0. apply K0. exact Hid. }
      rewrite LX in A4. unfold kcall. rewrite Gx. cbn [rbind]. rewrite A1. cbn [rbind]. exists st, (CK v (csc x)). split; [reflexivity|]. split; [exact PO|]. unfold noisy, kreg. cbn [kids klev ksc kM kmu keps csc cv].
      split; [exact A2|]. split; [exact H0|]. split; [exact S0|]. split; [exact F0|]. split; [apply (k_same (cv x)); assumption|]. split; [exact N0|]. split; [exact I0|].
      exists (add (galois (5 ^ (k mod Z.of_nat (N / 2))) m0) E). split; [|split].
      + intros q Hq. eapply eqm_trans; [apply A5; exact Hq|]. apply eqm_add; [|apply eqm_refl]. apply (galois_eqm pp WF); [exact Q0|]. apply D0. exact Hq.
      + apply bnd_add; [apply (galois_bnd pp WF); assumption|exact A4].
      + apply (near_plus NP); [apply F0| |exact A4]. rewrite <- (Z2Nat.id _ Q0). cbn [kplain]. apply near_rot; trivial. apply (pow2N pp WF).
    - (* ConjugateNew *)
      destruct (GET i a Hi) as (x & Gx & _ & RX). pose proof (kreg_len _ _ _ RX) as LX. destruct RX as (W0 & H0 & S0 & F0 & K0 & N0 & I0 & m0 & D0 & B0 & Z0). destruct HR as [(ca & GA & CA) HK].
      rewrite LV in W0, H0, D0. destruct (C24_conjugate_new N pp (o 0%nat) crs x ck s ca B T WF (O 0%nat) SM) as (v & E & A1 & A2 & A3 & A4 & A5); trivial.
      { intros id Hid. apply HK. apply I0. apply K0. exact Hid. }
      rewrite LX in A4. unfold kcall. rewrite Gx. cbn [rbind]. rewrite A1. cbn [rbind]. exists st, (CK v (csc x)). split; [reflexivity|]. split; [exact PO|]. unfold noisy, kreg. cbn [kids klev ksc kM kmu keps csc cv]. rewrite LV.
      split; [exact A2|]. split; [exact H0|]. split; [exact S0|]. split; [exact F0|]. split; [apply (k_same (cv x)); assumption|]. split; [exact N0|]. split; [exact I0|].
      exists (add (galois (-1) m0) E). split; [|split].
      + intros q Hq. eapply eqm_trans; [apply A5; exact Hq|]. apply eqm_add; [|apply eqm_refl]. rewrite !galois_conj. apply aut_eqm. apply D0. exact Hq.
      + apply bnd_add; [rewrite galois_conj; apply aut_bnd; assumption|exact A4].
      + apply (near_plus NP); [apply F0| |exact A4]. apply (near_conj NP). exact Z0.
    - (* MulPtxtNew *)
      destruct (GET i a Hi) as (x & Gx & _ & RX). pose proof (kreg_len _ _ _ RX) as LX. destruct RX as (W0 & H0 & S0 & F0 & K0 & N0 & I0 & m0 & D0 & B0 & Z0).
      destruct (HP p q Hp) as (y & Gy & PL & PI & PSC & FP & w & PW & BW & ZW).
      assert (LM : L = (length (Qm pp) - 1)%nat) by reflexivity.
      destruct (C30_mul_plaintext N pp (o 0%nat) pscale st x (fst y) (snd y) (klev a) nb WF (O 0%nat) PO) as (st' & v & A1 & A2 & A3 & A4 & A5); rewrite ?S0, ?PSC; trivial; try lia.
      { intros u Hu. apply PI. lia. }
      { apply fpos_le0. exact PS. }
      { apply fpos_eq0. exact F1. }
      rewrite S0, PSC in A1. fold scale in A1. assert (LD : (nb <= klev a)%nat) by apply DV.
      unfold kcall. rewrite Gx. cbn [rbind]. unfold BasisExt.idx. rewrite Gy. cbn [rbind]. exists st', (CK v (rscale pp (klev a) scale nb)). split; [rewrite PSC; exact A1|]. split; [exact A2|]. unfold prod_info, kreg. cbn [kids klev ksc kM kmu keps csc cv].
      split; [exact A3|]. split; [lia|]. split; [reflexivity|]. split; [exact F2|]. split; [apply (k_same (cv x)); assumption|]. split; [exact N0|]. split; [exact I0|].
      destruct (A5 s T m0 w) as (m' & RS & DM); [|exact D0|intros u Hu; apply PW; lia|].
      { intros u Hu. apply HR. apply I0. apply K0. exact Hu. }
      rewrite LX in RS. fold D in RS. exists m'. split; [exact DM|]. assert (D1' : 1 <= D) by (apply (dropped_pos pp WF); trivial).
      assert (RS' : rescaled D (length (kids a)) T (add (mul w m0) R0) m') by (replace (add (mul w m0) R0) with (mul w m0) by (apply R_ext; intros u Hu; rewrite co_add, co_R0; ring); exact RS).
      assert (BZ : bnd (R0 : P) 0) by (intros u Hu; rewrite co_R0; lia).
      exact (prod_ok D (length (kids a)) 0 w m0 m' R0 _ _ _ _ _ _ _ _ _ _ _ D1' (proj2 FP) (proj2 F0) (proj2 F2) ZW Z0 BW B0 BZ RS').
    - (* MulPtxtNew at level 0 *)
      destruct (GET i a Hi) as (x & Gx & _ & W0 & H0 & S0 & F0 & K0 & N0 & I0 & m0 & D0 & B0 & Z0). rewrite L0 in *.
      destruct (HP p q Hp) as (y & Gy & PL & PI & PSC & FP & w & PW & BW & ZW).
      destruct (C30_level0 N pp (o 0%nat) pscale st x (fst y) (snd y) WF (O 0%nat) PO) as (st' & v & A1 & A2 & A3 & A4 & A5); trivial; try lia.
      { apply PI. lia. }
      rewrite S0, PSC in A1. unfold kcall. rewrite Gx. cbn [rbind]. unfold BasisExt.idx. rewrite Gy. cbn [rbind]. exists st', (CK v (f_mul (ksc a) (psc q))). split; [rewrite PSC; exact A1|]. split; [exact A2|]. unfold prod_info, kreg. cbn [kids klev ksc kM kmu keps csc cv].
      split; [exact A3|]. split; [lia|]. split; [reflexivity|]. split; [exact F1|]. split; [apply (k_same (cv x)); assumption|]. split; [exact N0|]. split; [exact I0|].
      exists (mul w m0). split; [apply A5; [exact D0|intros u Hu; apply PW; lia]|].
      assert (RS' : rescaled 1 0 T (add (mul w m0) R0) (mul w m0)).
      { exists R0. split; [apply R_ext; intros u Hu; rewrite co_smul, !co_add, !co_R0; ring|]. intros u Hu. rewrite co_smul, co_R0. cbn. lia. }
      assert (BZ : bnd (R0 : P) 0) by (intros u Hu; rewrite co_R0; lia).
      exact (prod_ok 1 0 0 w m0 (mul w m0) R0 _ _ _ _ _ _ _ _ _ _ _ (Z.le_refl 1) (proj2 FP) (proj2 F0) (proj2 F1) ZW Z0 BW B0 BZ RS').
    - (* DropLevelNew *)
      destruct (GET i a Hi) as (x & Gx & _ & W0 & H0 & S0 & F0 & K0 & N0 & I0 & m0 & D0 & B0 & Z0).
      destruct (C28_drop_level_new N pp (o 0%nat) x (klev a) n WF (O 0%nat) Hn W0) as (v & A1 & A2 & _ & A3 & A4).
      unfold kcall. rewrite Gx. cbn [rbind]. rewrite A1. cbn [rbind]. exists st, (CK v (csc x)). split; [reflexivity|]. split; [exact PO|]. unfold kreg. cbn [kids klev ksc kM kmu keps csc cv].
      split; [exact A2|]. split; [lia|]. split; [exact S0|]. split; [exact F0|]. split; [apply (k_same (cv x)); assumption|]. split; [exact N0|]. split; [exact I0|].
      exists m0. split; [|split; assumption]. intros u Hu. rewrite A4 by exact Hu. apply D0. lia.
  Qed.
End Circuit.

Lemma nth_error_snoc {A} (l : list A) x a : nth_error (l ++ [x]) a = if (a =? length l)%nat then Some x else nth_error l a.
Proof.
  destruct (Nat.eqb_spec a (length l)) as [->|NE]; [rewrite nth_error_app2 by lia; rewrite Nat.sub_diag; reflexivity|].
  destruct (Nat.lt_ge_cases a (length l)); [apply nth_error_app1; assumption|]. rewrite (proj2 (nth_error_None l a)) by lia. apply nth_error_None. rewrite app_length. cbn. lia.
Qed.

(** ** C48 *)
Theorem C48_program : forall N pp pscale crs (rs : rlkset N) (rk : rotset N) (ck : conjset N) (s r : string -> R N) B T (pids : list string) (w : nat -> nat -> IdSetModel.order)
  (pts : list (poly N * f64)) (pis : list kpinfo) (zpts : list slots) prog n st (cs : list (ckct N)) ts zs ts',
  wfp N pp -> fpos pscale -> small_ok pp B -> (forall n m, order_ok (w n m)) -> pool_ok pp st ->
  Forall (kready pp crs rs rk ck s r B T pids) prog -> ksteps N pp pscale crs B T pis ts prog ts' ->
  length ts = length cs -> length zs = length cs -> (forall a c t, nth_error cs a = Some c -> nth_error ts a = Some t -> kreg pp s pids c t (nth a zs zslots)) ->
  (forall p q, nth_error pis p = Some q -> exists x, nth_error pts p = Some x /\ kplainreg pp x q (nth p zpts zslots)) ->
  exists st' cs', krun pp pscale crs rs rk ck pts w n prog st cs = Ok (st', cs') /\ pool_ok pp st' /\ length cs' = (length cs + length prog)%nat /\ length ts' = length cs' /\
    (forall a, (a < length cs)%nat -> nth_error cs' a = nth_error cs a) /\
    forall a c t, nth_error cs' a = Some c -> nth_error ts' a = Some t -> kreg pp s pids c t (nth a (kplain_run N zpts prog zs) zslots).
Proof.
  intros N pp pscale crs rs rk ck s r B T pids w pts pis zpts prog n st cs ts zs ts' WF PS SM O PO F ST. revert n st cs zs PO F.
  induction ST as [ts|ts i t prog ts' S1 ST IH]; intros n st cs zs PO F L1 L2 H HP; cbn [krun].
  - exists st, cs. split; [reflexivity|]. split; [exact PO|]. split; [cbn; lia|]. split; [exact L1|]. split; [reflexivity|exact H].
  - inversion F as [|? ? F1 F2]; subst.
    destruct (kcall_ok pp WF pscale PS crs rs rk ck s r B T SM pids (w n) st pts pis zpts i cs ts zs t (O n) PO F1 S1 L1 H HP) as (st1 & c & C1 & C2 & C3). rewrite C1. cbn [rbind].
    destruct (IH (S n) st1 (cs ++ [c]) (zs ++ [kplain N zpts i zs]) C2 F2) as (st' & cs' & R1 & R2 & R3 & R4 & R5 & R6).
    + rewrite !app_length. cbn. lia.
    + rewrite !app_length. cbn. lia.
    + intros a c' t'. rewrite !nth_error_snoc, L1. destruct (Nat.eqb_spec a (length cs)) as [->|NE].
      * intros E1 E2. injection E1 as <-. injection E2 as <-. rewrite app_nth2 by lia. rewrite L2, Nat.sub_diag. exact C3.
      * intros E1 E2. assert (a < length cs)%nat by (apply nth_error_Some; congruence). rewrite app_nth1 by lia. apply H; assumption.
    + exact HP.
    + exists st', cs'. split; [exact R1|]. split; [exact R2|]. split; [rewrite R3, app_length; cbn [length]; lia|]. split; [exact R4|]. split; [|exact R6].
      intros a Ha. rewrite R5 by (rewrite app_length; cbn; lia). rewrite nth_error_snoc. destruct (Nat.eqb_spec a (length cs)); [lia|reflexivity].
Qed.
Print Assumptions C48_program.

(** the modulus of a ciphertext at [level] *)
Definition qlev (pp : rparams) (level : nat) : Z := prodl (firstn (S level) (Qs pp)).
(** X is the centred integer polynomial with the given rows modulo q_0 .. q_level *)
Definition centred {N} (pp : rparams) (level : nat) (rows : list (R N)) (X : R N) : Prop :=
  (forall j i, (j <= level)%nat -> (i < N)%nat -> (mq (Qi pp j) | co (row rows j) i - co X i)) /\ forall i, (i < N)%nat -> 2 * Z.abs (co X i) < qlev pp level.
Lemma centred_unique {N} pp level (rows : list (R N)) X Y : wfp N pp -> (level < length (Qm pp))%nat -> centred pp level rows X -> centred pp level rows Y -> X = Y.
Proof.
  intros WF HL [A1 A2] [B1 B2]. apply R_ext. intros i Hi. specialize (A2 i Hi). specialize (B2 i Hi).
  assert (LQ : length (Qs pp) = length (Qm pp)) by (unfold Qs; apply map_length).
  assert (D : (qlev pp level | co X i - co Y i)).
  { destruct (wf_base _ _ WF) as [ND FO]. unfold qlev. apply divide_prodl.
    - apply NoDup_app_remove_r in ND. rewrite <- (firstn_skipn (S level) (Qs pp)) in ND. apply NoDup_app_remove_r in ND. exact ND.
    - intros x Hx. assert (I : In x (Qs pp)) by (rewrite <- (firstn_skipn (S level) (Qs pp)); apply in_or_app; left; exact Hx).
      apply (proj1 (Forall_forall _ _) FO x). apply in_or_app. left. exact I.
    - intros x Hx. apply (In_nth _ _ 0) in Hx. destruct Hx as (j & Hj & <-). rewrite firstn_length in Hj. rewrite nth_firstn by lia.
      replace (nth j (Qs pp) 0) with (mq (Qi pp j)) by (unfold Qs, Qi; rewrite (nth_indep _ 0 (mq dmod)) by (rewrite map_length; lia); rewrite map_nth; reflexivity).
      replace (co X i - co Y i) with ((co (row rows j) i - co Y i) - (co (row rows j) i - co X i)) by ring. apply Z.divide_sub_r; [apply B1|apply A1]; lia. }
  destruct D as [k D]. assert (k = 0) by nia. lia.
Qed.

(** the register's plaintext fits into the modulus of its level: either the tracked bound of its coefficients is below half the modulus, or the slots are:
    scale times (bound of the slot values + error) is below half the modulus (the coefficients of a polynomial are at most as large as its slots) *)
Definition fits (pp : rparams) (t : kinfo) : Prop := 2 * kM t < qlev pp (klev t) \/ (2 * (B2R (ksc t) * (kmu t + keps t)) < IZR (qlev pp (klev t)))%R.
(** Decrypt with a key set containing the keys of the register's parties, into a plaintext of full level: if the register fits into the modulus of its level, the centred lift X of the result exists, is unique, and its slots divided by the scale are within the error bound of what the program computes on slots *)
Theorem C48_decrypts : forall N pp pscale crs (rs : rlkset N) (rk : rotset N) (ck : conjset N) (s r : string -> R N) B T (pids : list string) (w : nat -> nat -> IdSetModel.order) (o : IdSetModel.order) sks (pt : poly N)
  (pts : list (poly N * f64)) (pis : list kpinfo) (zpts : list slots) prog n st (cs : list (ckct N)) ts zs ts' a t,
  wfp N pp -> fpos pscale -> small_ok pp B -> (forall n m, order_ok (w n m)) -> order_ok o -> pool_ok pp st ->
  Forall (kready pp crs rs rk ck s r B T pids) prog -> ksteps N pp pscale crs B T pis ts prog ts' ->
  length ts = length cs -> length zs = length cs -> (forall a c t, nth_error cs a = Some c -> nth_error ts a = Some t -> kreg pp s pids c t (nth a zs zslots)) ->
  (forall p q, nth_error pis p = Some q -> exists x, nth_error pts p = Some x /\ kplainreg pp x q (nth p zpts zslots)) ->
  keys_ok pp (fun _ => True) s sks -> plevel pt = maxLevel pp -> nth_error ts' a = Some t -> incl (kids t) (keys sks) -> fits pp t ->
  exists st' cs' c p, krun pp pscale crs rs rk ck pts w n prog st cs = Ok (st', cs') /\ nth_error cs' a = Some c /\ csc c = ksc t /\ Decrypt pp o (cv c) sks pt = Ok p /\ plevel p = klev t /\
    exists X, centred pp (klev t) (prows p) X /\ (forall Y, centred pp (klev t) (prows p) Y -> Y = X) /\
      forall j, (j < N / 2)%nat -> (cabs (csub (cscale (/ B2R (csc c)) (ckks_slot X j)) (nth a (kplain_run N zpts prog zs) zslots j)) <= keps t)%R.
Proof.
  intros N pp pscale crs rs rk ck s r B T pids w o sks pt pts pis zpts prog n st cs ts zs ts' a t WF PS SM O O' PO F ST L1 L2 H HP KO PL Ha I HM.
  destruct (C48_program N pp pscale crs rs rk ck s r B T pids w pts pis zpts prog n st cs ts zs ts' WF PS SM O PO F ST L1 L2 H HP) as (st' & cs' & R1 & R2 & R3 & R4 & R5 & R6).
  destruct (nth_error cs' a) as [c|] eqn:EC; [|apply nth_error_None in EC; assert (a < length ts')%nat by (apply nth_error_Some; congruence); lia].
  destruct (R6 a c t EC Ha) as (W & HL & SC & FP & K & ND & IN & m & D & BM & NM).
  destruct (C15_value N pp (klev t) false o (cv c) s sks pt WF HL O' W) as (p & P1 & P2 & P3).
  { destruct KO as [A C]. split; [exact A|]. intros id k Hk. destruct (C id k Hk) as [C1 C2]. split; [exact C1|]. intros _. apply C2. exact Logic.I. }
  { intros x Hx. apply I. apply K. exact Hx. }
  rewrite PL in P2, P3. replace (Nat.min (klev t) (maxLevel pp)) with (klev t) in * by (unfold maxLevel; lia).
  exists st', cs', c, p. split; [exact R1|]. split; [exact EC|]. split; [exact SC|]. split; [exact P1|]. split; [exact P2|].
  assert (CM : centred pp (klev t) (prows p) m).
  { split.
    - intros j i Hj Hi. destruct (P3 j Hj) as [_ E]. assert (E' := eqm_trans _ _ _ _ E (D j Hj)). unfold pvalue in E'. cbn [pntt prows] in E'. rewrite eqm_co in E'. apply E'. exact Hi.
    - intros i Hi. destruct HM as [HM|HM]; [specialize (BM i Hi); lia|].
      assert (BS : bnd m ((qlev pp (klev t) - 1) / 2)).
      { apply (near_bnd (pow2N pp WF) (proj1 (wf_N _ _ WF)) m _ _ _ _ _ (proj2 FP) NM). set (q := qlev pp (klev t)) in *. pose proof (Z.div_mod (q - 1) 2 ltac:(lia)). pose proof (Z.mod_pos_bound (q - 1) 2 ltac:(lia)).
        set (h := (q - 1) / 2) in *. assert (X : (IZR q <= 2 * IZR (h + 1))%R) by (rewrite <- (mult_IZR 2); apply IZR_le; lia). lra. }
      specialize (BS i Hi). set (q := qlev pp (klev t)) in *. pose proof (Z.mul_div_le (q - 1) 2 ltac:(lia)). lia. }
  exists m. split; [exact CM|]. split; [intros Y CY; apply (centred_unique pp (klev t) (prows p)); assumption|]. intros j Hj. rewrite SC. apply NM. exact Hj.
Qed.
Print Assumptions C48_decrypts.

(** ** from key generation and encryption on *)
(** what the encoder hands to Encrypt for the slot vector z: a plaintext of full level whose rows are the residues of an integer polynomial X with coefficients at most M
    and slots within [eps] of z after division by the scale *)
Definition kencoded {N} (pp : rparams) (sc : f64) (M : Z) (mu eps : Rdefinitions.R) (z : slots) (pt : poly N) : Prop :=
  wfplain pp pt /\ plevel pt = maxLevel pp /\ exists X, (forall j, (j <= maxLevel pp)%nat -> eqm (mq (Qi pp j)) (pvalue pp pt j) X) /\ bnd X M /\ near X (B2R sc) z mu eps.
Definition kfresh (N : nat) (pp : rparams) (sc : f64) (B T M : Z) (mu eps : Rdefinitions.R) (id : string) : kinfo :=
  let F := B * (1 + 2 * Z.of_nat N * T) in KI [id] (maxLevel pp) sc (M + F) mu (eps + INR N * IZR F / B2R sc).

Theorem C48_fresh : forall N pp sc B T M mu eps z (s : string -> R N) (e u e0 e1 : R N) ss se su se0 se1 id crs c o (pt : poly N) pk pids,
  wfp N pp -> fpos sc -> small_ok pp B -> small_ok pp T -> ord1_ok o -> id <> id0 -> In id pids ->
  is_sample pp T (s id) ss -> is_sample pp T u su -> is_sample pp B e se -> is_sample pp B e0 se0 -> is_sample pp B e1 se1 ->
  mget Z.eq_dec crs 0 = Some c -> crs_ok pp c -> kencoded pp sc M mu eps z pt ->
  GenPublicKey pp crs (genSecretKeyFromSampler pp id ss) se = Ok pk ->
  exists ct, EncryptMsgNew pp o pt pk su se0 se1 = Ok ct /\ kreg pp s pids (CK ct sc) (kfresh N pp sc B T M mu eps id) z.
Proof.
  intros N pp sc B T M mu eps z s e u e0 e1 ss se su se0 se1 id crs c o pt pk pids WF FS SM SMT O NI IP S1 S2 S3 S4 S5 GC CO (WP & PL & X & HX & BX & NX) GP.
  destruct (fresh_phase N pp B T (s id) e u e0 e1 ss se su se0 se1 id crs c o pt pk) as (ct & A1 & A2 & A3 & A4 & A5); trivial. rewrite PL in A2, A5.
  assert (NPs : (0 < N)%nat) by (pose proof (proj1 (wf_N _ _ WF)); lia).
  exists ct. split; [exact A1|]. unfold kreg, kfresh. cbn [kids klev ksc kM kmu keps cv csc]. split; [exact A2|]. split; [pose proof (wf_Qpos _ _ WF); unfold maxLevel; lia|]. split; [reflexivity|]. split; [exact FS|].
  split; [intros x; rewrite in_parties, A3; cbn; split; [intuition|intros [<-|[]]; tauto]|]. split; [repeat constructor; cbn; tauto|]. split; [intros x [<-|[]]; exact IP|].
  exists (add X (fresh_error e0 u e e1 (s id))). split; [|split].
  - intros j Hj. eapply eqm_trans; [apply (A5 s j eq_refl Hj)|]. apply eqm_add; [apply HX; exact Hj|apply eqm_refl].
  - apply bnd_add; assumption.
  - apply (near_plus NPs); trivial. apply FS.
Qed.
Print Assumptions C48_fresh.

(** the keys of party [id] in the key sets are those the key generator makes from samples of size at most B (errors) and T (secrets); [rots] are the rotation indices *)
Definition kgenerated {N} (pp : rparams) (B T : Z) (crs : crsT N) (rs : rlkset N) (rk : rotset N) (ck : conjset N) (sks : gomap string (secretKey N)) (rots : list Z) (pk : string -> publicKey N) (id : string) (s r : R N) : Prop :=
  exists ss sr sb sd sv se (eb ed ev : nat -> R N) e, is_sample pp T s ss /\ is_sample pp T r sr /\ is_sample pp B e se /\
    (forall k, (k < beta pp (maxLevel pp))%nat -> is_sample pp B (eb k) (sb k) /\ is_sample pp B (ed k) (sd k) /\ is_sample pp B (ev k) (sv k)) /\
    let sk := genSecretKeyFromSampler pp id ss in
    mget seq_dec sks id = Some sk /\
    GenPublicKey pp crs sk se = Ok (pk id) /\
    GenRelinearizationKey pp crs sk (genSecretKeyFromSampler pp id sr) sb sd sv = rlk_get rs id /\
    (forall i, In i rots -> exists smp e, (forall j, (j < beta pp (maxLevel pp))%nat -> is_sample pp B (e j) (smp j)) /\ GenRotationKey pp crs i sk smp = rk_get rk id i) /\
    exists smp e, (forall j, (j < beta pp (maxLevel pp))%nat -> is_sample pp B (e j) (smp j)) /\ GenConjugationKey pp crs sk smp = ks_get ck id.

(** one input: who encrypts, the slot vector, its encoding and the encryption randomness *)
Record kinput (N : nat) := KIn { ki_id : string; ki_z : slots; ki_pt : poly N; ki_su : list (R N); ki_s0 : list (R N); ki_s1 : list (R N) }.
Arguments ki_id {N}. Arguments ki_z {N}. Arguments ki_pt {N}. Arguments ki_su {N}. Arguments ki_s0 {N}. Arguments ki_s1 {N}.
Definition kinput_ok {N} (pp : rparams) (sc : f64) (B T M : Z) (mu eps : Rdefinitions.R) (x : kinput N) : Prop :=
  kencoded pp sc M mu eps (ki_z x) (ki_pt x) /\ exists u e0 e1, is_sample pp T u (ki_su x) /\ is_sample pp B e0 (ki_s0 x) /\ is_sample pp B e1 (ki_s1 x).
(** EncryptMsgNew on every input (mkckks/encryptor.go:51-58: the ciphertext gets the plaintext's scale), then the program *)
Definition kencrypt {N} pp (pscale : f64) (pk : string -> publicKey N) (oe : nat -> list string -> list string) (ins : list (kinput N)) : res (list (ckct N)) :=
  rmapM (fun k => match nth_error ins k with Some x => c <- EncryptMsgNew pp (oe k) (ki_pt x) (pk (ki_id x)) (ki_su x) (ki_s0 x) (ki_s1 x) ;; Ok (CK c pscale) | None => Panic end) (seq 0 (length ins)).
Definition ksession {N} pp (pscale : f64) crs (rs : rlkset N) (rk : rotset N) (ck : conjset N) pts (pk : string -> publicKey N) (w : nat -> nat -> IdSetModel.order) (oe : nat -> list string -> list string) (ins : list (kinput N))
  (prog : list kinstr) (st : evalst N) : res (evalst N * list (ckct N)) :=
  cs <- kencrypt pp pscale pk oe ins ;; krun pp pscale crs rs rk ck pts w 0 prog st cs.
(** the rotation indices a program uses *)
Definition krots {N} (crs : crsT N) (prog : list kinstr) (rots : list Z) : Prop := forall i k j, In (KRot i k) prog -> let q := k mod Z.of_nat (N / 2) in q <> 0 -> used_index crs q j -> In j rots.

Lemma rmapM_seq {A} (f : nat -> res A) (G : nat -> A -> Prop) : forall n st, (forall k, (st <= k < st + n)%nat -> exists c, f k = Ok c /\ G k c) ->
  exists cs, rmapM f (seq st n) = Ok cs /\ length cs = n /\ forall k c, nth_error cs k = Some c -> G (st + k)%nat c.
Proof.
  induction n as [|n IH]; intros st H; [exists nil; split; [reflexivity|split; [reflexivity|intros [|k] c E; discriminate E]]|].
  destruct (H st ltac:(lia)) as (c & F1 & G1). destruct (IH (S st)) as (cs & F2 & F3 & F4); [intros k Hk; apply H; lia|].
  exists (c :: cs). cbn [seq rmapM]. rewrite F1. cbn [rbind]. rewrite F2. split; [reflexivity|]. split; [cbn; lia|]. intros [|k] c' E; cbn [nth_error] in E.
  - injection E as <-. rewrite Nat.add_0_r. exact G1.
  - rewrite Nat.add_succ_r, <- Nat.add_succ_l. apply F4. exact E.
Qed.

Lemma ids_in {N} pp pscale crs B T pids pis : forall ts prog ts', ksteps N pp pscale crs B T pis ts prog ts' -> (forall t, In t ts -> incl (kids t) pids) -> forall t, In t ts' -> incl (kids t) pids.
Proof.
  intros ts prog ts' ST. induction ST as [ts|ts i t prog ts' S1 ST IH]; intros H; [exact H|]. apply IH. intros t' Ht. apply in_app_iff in Ht as [Ht|[<-|[]]]; [apply H; exact Ht|].
  assert (G : forall n a, nth_error ts n = Some a -> incl (kids a) pids) by (intros n a E; apply H; apply (nth_error_In _ _ E)).
  assert (U : forall a b, incl (kids a) pids -> incl (kids b) pids -> incl (nodup string_dec (kids a ++ kids b)) pids) by (intros a b X Y x Hx; apply nodup_In in Hx; apply in_app_iff in Hx as [Hx|Hx]; auto).
  destruct S1; cbn [sum_info prod_info noisy kids]; eauto.
Qed.

(** key generation and encryption: the inputs are registers that hold their messages, every call of the program finds its keys, the secret keys decrypt *)
Lemma kend_setup {N} pp pscale B T M mu eps crs (rs : rlkset N) (rk : rotset N) (ck : conjset N) sks (pk : string -> publicKey N) (s r : string -> R N) (pids : list string) rots (oe : nat -> list string -> list string) (ins : list (kinput N)) prog :
  wfp N pp -> fpos pscale -> (forall n, ord1_ok (oe n)) -> small_ok pp B -> small_ok pp T ->
  (forall i, In i ([0; -1; -2] ++ rots) -> exists c, mget Z.eq_dec crs i = Some c /\ crs_ok pp c) ->
  mwf sks -> (forall id k, mget seq_dec sks id = Some k -> In id pids) ->
  (forall id, In id pids -> id <> id0 /\ kgenerated pp B T crs rs rk ck sks rots pk id (s id) (r id)) ->
  (forall x, In x ins -> In (ki_id x) pids /\ kinput_ok pp pscale B T M mu eps x) -> krots crs prog rots ->
  exists cs, kencrypt pp pscale pk oe ins = Ok cs /\ length cs = length ins /\
    (forall k c t, nth_error cs k = Some c -> nth_error (map (fun x => kfresh N pp pscale B T M mu eps (ki_id x)) ins) k = Some t -> kreg pp s pids c t (nth k (map ki_z ins) zslots)) /\
    Forall (kready pp crs rs rk ck s r B T pids) prog /\ keys_ok pp (fun _ => True) s sks /\ forall x, In x pids -> In x (keys sks).
Proof.
  intros WF PS OE SM SMT HC MW HS HG HI HR.
  destruct (HC 0) as (c0 & GC0 & CO0); [apply in_or_app; left; cbn; tauto|].
  pose (f := fun k => match nth_error ins k with Some x => c <- EncryptMsgNew pp (oe k) (ki_pt x) (pk (ki_id x)) (ki_su x) (ki_s0 x) (ki_s1 x) ;; Ok (CK c pscale) | None => Panic end).
  pose (G := fun (k : nat) (c : ckct N) => exists x, nth_error ins k = Some x /\ kreg pp s pids c (kfresh N pp pscale B T M mu eps (ki_id x)) (ki_z x)).
  destruct (rmapM_seq f G (length ins) 0%nat) as (cs & CS1 & CS2 & CS3).
  { intros k Hk. unfold f, G. destruct (nth_error ins k) as [x|] eqn:EX; [|apply nth_error_None in EX; lia]. pose proof (nth_error_In _ _ EX) as IX. destruct (HI x IX) as (IP & EN & u & e0 & e1 & S2 & S4 & S5).
    destruct (HG _ IP) as (NI & ss & sr & sb & sd & sv & se & eb & ed & ev & e & S1 & _ & S3 & _ & GS & GP & _).
    destruct (C48_fresh N pp pscale B T M mu eps (ki_z x) s e u e0 e1 ss se (ki_su x) (ki_s0 x) (ki_s1 x) (ki_id x) crs c0 (oe k) (ki_pt x) (pk (ki_id x)) pids) as (ct & A1 & A2); trivial.
    exists (CK ct pscale). rewrite A1. cbn [rbind]. split; [reflexivity|]. exists x. split; [reflexivity|exact A2]. }
  cbn [Nat.add] in CS3. exists cs. split; [exact CS1|]. split; [exact CS2|].
  assert (SKV : forall id ss, is_sample pp T (s id) ss -> mval pp (maxLevel pp) (sk_val (genSecretKeyFromSampler pp id ss)) (fun _ => s id)) by (intros id ss H; apply (genSecretKey_ok pp WF T (s id) id ss SMT H)).
  assert (RDY : Forall (kready pp crs rs rk ck s r B T pids) prog).
  { apply Forall_forall. intros i Hi. destruct i as [i j|i j|i j|i k|i|i p|i n]; cbn [kready]; trivial.
    - destruct (HC (-1)) as (u & G3 & C3); [apply in_or_app; left; cbn; tauto|]. exists c0, u. split; [exact GC0|]. split; [exact G3|]. split; [exact CO0|]. split; [exact C3|]. intros id IP.
      destruct (HG id IP) as (_ & ss & sr & sb & sd & sv & se & eb & ed & ev & e & S1 & S1' & _ & SS & _ & _ & GR & _).
      exists (genSecretKeyFromSampler pp id ss), (genSecretKeyFromSampler pp id sr), sb, sd, sv, eb, ed, ev.
      pose proof (SKV id ss S1) as V1. pose proof (genSecretKey_ok pp WF T (r id) id sr SMT S1') as V2.
      destruct (GenRelinearizationKey pp crs (genSecretKeyFromSampler pp id ss) (genSecretKeyFromSampler pp id sr) sb sd sv) as [key|] eqn:EK.
      + exists key. split; [exact V1|]. split; [exact V2|]. split; [apply S1|]. split; [apply S1'|]. split; [exact SS|]. split; [reflexivity|].
        unfold rlk_get in GR. destruct (mget seq_dec rs id) as [k'|]; [congruence|discriminate].
      + exfalso. destruct (GenRelinearizationKey_ok pp WF B eb ed ev sb sd sv crs c0 u (genSecretKeyFromSampler pp id ss) (genSecretKeyFromSampler pp id sr) (s id) (r id) SM SS V1 V2 GC0 G3 CO0 C3) as (key & X & _). rewrite X in EK. discriminate EK.
    - intros j NZ U. pose proof (HR i k j Hi NZ U) as IR. split; [apply HC; apply in_or_app; right; exact IR|]. intros id IP.
      destruct (HG id IP) as (_ & ss & sr & sb & sd & sv & se & eb & ed & ev & e & S1 & _ & _ & _ & _ & _ & _ & GK & _). destruct (GK j IR) as (smp & e' & SS & GR).
      destruct (HC j) as (aj & GJ & CJ); [apply in_or_app; right; exact IR|]. unfold has_rot_key. exists (genSecretKeyFromSampler pp id ss), smp, e'.
      destruct (GenRotationKey pp crs j (genSecretKeyFromSampler pp id ss) smp) as [key|] eqn:EK.
      + exists key. split; [apply SKV; exact S1|]. split; [apply S1|]. split; [exact SS|]. split; [reflexivity|symmetry; exact GR].
      + exfalso. revert EK. assert (J0 : 0 <= j) by (destruct U as [[_ ->]|(_ & q & T1 & _ & ->)]; [apply Z.mod_pos_bound; pose proof (proj1 (wf_N _ _ WF)) as N2; pose proof (Nat.div_le_mono 2 N 2 ltac:(lia) N2); change (2 / 2)%nat with 1%nat in *; lia|apply Z.pow_nonneg; lia]).
        destruct (GenRotationKey_ok pp WF B e' smp crs j aj j aj (genSecretKeyFromSampler pp id ss) (s id) SM SS (SKV id ss S1) GJ) as (key & X & _); [destruct (Z.ltb_spec j 0); [lia|reflexivity]|exact GJ|exact CJ|]. rewrite X. discriminate.
    - split; [apply HC; apply in_or_app; left; cbn; tauto|]. intros id IP.
      destruct (HG id IP) as (_ & ss & sr & sb & sd & sv & se & eb & ed & ev & e & S1 & _ & _ & _ & _ & _ & _ & _ & smp & e' & SS & GR).
      destruct (HC (-2)) as (aj & GJ & CJ); [apply in_or_app; left; cbn; tauto|]. unfold has_conj_key. exists (genSecretKeyFromSampler pp id ss), smp, e'.
      destruct (GenConjugationKey pp crs (genSecretKeyFromSampler pp id ss) smp) as [key|] eqn:EK.
      + exists key. split; [apply SKV; exact S1|]. split; [apply S1|]. split; [exact SS|]. split; [reflexivity|symmetry; exact GR].
      + exfalso. destruct (GenConjugationKey_ok pp WF B e' smp crs aj (genSecretKeyFromSampler pp id ss) (s id) SM SS (SKV id ss S1) GJ CJ) as (key & X & _). rewrite X in EK. discriminate EK.
    - intros id IP. destruct (HG id IP) as (_ & ss & sr & sb & sd & sv & se & eb & ed & ev & e & S1 & _). apply S1. }
  assert (KO : keys_ok pp (fun _ => True) s sks).
  { split; [exact MW|]. intros id k Hk. destruct (HG id (HS id k Hk)) as (_ & ss & sr & sb & sd & sv & se & eb & ed & ev & e & S1 & _ & _ & _ & GS & _). assert (k = genSecretKeyFromSampler pp id ss) by congruence. subst k.
    split; [reflexivity|]. intros _. apply SKV. exact S1. }
  split; [|split; [exact RDY|split; [exact KO|]]].
  - intros k c t' E1 E2. destruct (CS3 k c E1) as (x & EX & KR). rewrite nth_error_map, EX in E2. cbn in E2. injection E2 as <-. rewrite (nth_indep _ zslots (ki_z x)) by (rewrite map_length; apply nth_error_Some; congruence). rewrite map_nth, (nth_error_nth _ _ x EX). exact KR.
  - intros x I. destruct (HG x I) as (_ & ss & sr & sb & sd & sv & se & eb & ed & ev & e & _ & _ & _ & _ & GS & _). apply (mget_In_keys seq_dec). congruence.
Qed.

(** every party makes its keys with the key generator, the inputs are encrypted by EncryptMsgNew, the server runs any program, and Decrypt with everybody's secret keys
    returns, for each register that fits into the modulus of its level, a polynomial whose slots are within the error bound of the program's result on slots *)
Theorem C48_end_to_end : forall N pp pscale B T M mu eps crs (rs : rlkset N) (rk : rotset N) (ck : conjset N) sks (pk : string -> publicKey N) (s r : string -> R N) (pids : list string) rots
  (w : nat -> nat -> IdSetModel.order) (oe : nat -> list string -> list string) (o : IdSetModel.order) (pt : poly N) pts pis zpts (ins : list (kinput N)) prog st ts' a t,
  wfp N pp -> fpos pscale -> (forall n m, order_ok (w n m)) -> (forall n, ord1_ok (oe n)) -> order_ok o -> small_ok pp B -> small_ok pp T -> pool_ok pp st ->
  (forall i, In i ([0; -1; -2] ++ rots) -> exists c, mget Z.eq_dec crs i = Some c /\ crs_ok pp c) ->
  mwf sks -> (forall id k, mget seq_dec sks id = Some k -> In id pids) ->
  (forall id, In id pids -> id <> id0 /\ kgenerated pp B T crs rs rk ck sks rots pk id (s id) (r id)) ->
  (forall x, In x ins -> In (ki_id x) pids /\ kinput_ok pp pscale B T M mu eps x) ->
  (forall p q, nth_error pis p = Some q -> exists x, nth_error pts p = Some x /\ kplainreg pp x q (nth p zpts zslots)) ->
  krots crs prog rots -> ksteps N pp pscale crs B T pis (map (fun x => kfresh N pp pscale B T M mu eps (ki_id x)) ins) prog ts' ->
  plevel pt = maxLevel pp -> nth_error ts' a = Some t -> fits pp t ->
  exists st' cs c p, ksession pp pscale crs rs rk ck pts pk w oe ins prog st = Ok (st', cs) /\ nth_error cs a = Some c /\ csc c = ksc t /\ Decrypt pp o (cv c) sks pt = Ok p /\ plevel p = klev t /\
    exists X, centred pp (klev t) (prows p) X /\ (forall Y, centred pp (klev t) (prows p) Y -> Y = X) /\
      forall j, (j < N / 2)%nat -> (cabs (csub (cscale (/ B2R (csc c)) (ckks_slot X j)) (nth a (kplain_run N zpts prog (map ki_z ins)) zslots j)) <= keps t)%R.
Proof.
  intros N pp pscale B T M mu eps crs rs rk ck sks pk s r pids rots w oe o pt pts pis zpts ins prog st ts' a t WF PS O OE OD SM SMT PO HC MW HS HG HI HP HR ST PL Ha HM.
  destruct (kend_setup pp pscale B T M mu eps crs rs rk ck sks pk s r pids rots oe ins prog) as (cs & CS1 & CS2 & CS3 & RDY & KO & IK); trivial.
  unfold ksession. rewrite CS1. cbn [rbind].
  apply (C48_decrypts N pp pscale crs rs rk ck s r B T pids w o sks pt pts pis zpts prog 0 st cs (map (fun x => kfresh N pp pscale B T M mu eps (ki_id x)) ins) (map ki_z ins) ts' a t); rewrite ?map_length, ?CS2; trivial.
  intros x Hx. apply IK. apply (ids_in pp pscale crs B T pids pis _ _ _ ST) with (t := t); [|apply (nth_error_In _ _ Ha)|exact Hx]. intros t' Ht. apply in_map_iff in Ht as (y & <- & Hy). intros z [<-|[]]. apply (HI y Hy).
Qed.
Print Assumptions C48_end_to_end.
