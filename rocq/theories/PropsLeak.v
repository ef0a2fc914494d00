(** C36: the published keys of one party determine its secret key. *)
From Verif Require Import Base NumTheory Negacyclic Ntt Word BasisExt BasisExtProofs DecompProofs Rows RlweModel SchemeSpec ExtProd ExtProps KeyGenModel Galois KeyGenProofs Instance PropsScheme LeakSpec.
From Coq Require Import Znumtheory.
Open Scope Z_scope.

Lemma centre_ok m x y : 0 < m -> eqz m x y -> 2 * Z.abs y < m -> centre m x = y.
Proof.
  intros M E B. unfold centre. apply eqz_iff in E; [|lia]. rewrite E. cbv zeta.
  destruct (Z.lt_ge_cases y 0).
  - rewrite <- (Z.mod_add y 1 m), Z.mod_small by lia. destruct (Z.leb_spec m (2 * (y + 1 * m))); lia.
  - rewrite Z.mod_small by lia. destruct (Z.leb_spec m (2 * y)); lia.
Qed.

(** the moduli fst l are distinct primes *)
Lemma crt_ok l (x : Z) : NoDup (map fst l) -> (forall q, In q (map fst l) -> prime q) -> (forall qr, In qr l -> eqz (fst qr) (snd qr) x) ->
  eqz (prodl (map fst l)) (crt (prodl (map fst l)) l) x.
Proof.
  intros ND PR RS. set (M := prodl (map fst l)).
  assert (DIV : forall q, In q (map fst l) -> forall q', In q' (map fst l) -> q <> q' -> eqz q (M / q') 0).
  { intros q I q' I' NE. destruct (in_split _ _ I') as (l1 & l2 & EL). pose proof (prime_ge_2 _ (PR _ I')).
    assert (EM : M = q' * prodl (l1 ++ l2)) by (unfold M; rewrite EL, !prodl_app; cbn [prodl fold_right]; fold (prodl l2); ring).
    rewrite EM, Z.mul_comm, Z.div_mul by lia. apply eqz_0. apply in_divide_prodl. rewrite EL in I. apply in_app_iff in I. apply in_app_iff. cbn in I. intuition congruence. }
  apply (divide_prodl (map fst l)); trivial.
  intros q I. change (eqz q (crt M l) x).
  assert (G : forall l', incl l' l -> NoDup (map fst l') -> (In q (map fst l') -> eqz q (crt M l') x) /\ (~ In q (map fst l') -> eqz q (crt M l') 0)).
  { induction l' as [|qr l' IH]; intros IN ND'; [split; [intros []|reflexivity]|].
    inversion ND' as [|a b NI ND2]; subst. destruct (IH (fun y Hy => IN y (or_intror Hy)) ND2) as [A B]. cbn [crt fold_right]. fold (crt M l').
    assert (IQ : In qr l) by (apply IN; left; reflexivity). assert (IF : In (fst qr) (map fst l)) by (apply in_map; exact IQ). split.
    - intros H. destruct (Z.eq_dec q (fst qr)) as [->|NE].
      + rewrite B by assumption. specialize (RS qr IQ).
        assert (IV : eqz (fst qr) (M / fst qr * invm (fst qr) (M / fst qr)) 1).
        { apply invm_eqz; [apply PR; exact IF|]. destruct (in_split _ _ IF) as (l1 & l2 & EL). pose proof (prime_ge_2 _ (PR _ IF)).
          assert (EM : M = fst qr * prodl (l1 ++ l2)) by (unfold M; rewrite EL, !prodl_app; cbn [prodl fold_right]; fold (prodl l2); ring).
          rewrite EM, Z.mul_comm, Z.div_mul by lia. apply prime_divide_prodl; [apply PR; exact IF| |].
          - intros y Hy. apply PR. rewrite EL. apply in_app_iff in Hy. apply in_app_iff. cbn. tauto.
          - rewrite EL in ND. apply NoDup_remove_2 in ND. exact ND. }
        rewrite <- Z.mul_assoc, IV, RS. apply eqz_eq. ring.
      + destruct H as [H|H]; [congruence|]. rewrite (A H). generalize (invm (fst qr) (M / fst qr)). intros z. rewrite (DIV q I (fst qr) IF NE). apply eqz_eq. ring.
    - intros H. rewrite B by (intros X; apply H; right; exact X). generalize (invm (fst qr) (M / fst qr)). intros z. rewrite (DIV q I (fst qr) IF) by (intros X; apply H; left; congruence). apply eqz_eq. ring. }
  apply (G l (incl_refl l) ND). exact I.
Qed.

Section Leak.
  Context {N : nat} (pp : rparams) (WF : wfp N pp).
  Add Ring R_ring20 : (@R_ring_theory N).
  Notation R := (R N).

  Lemma all_mi_moduli : map (qmod pp) (all_mi pp) = Qs pp ++ Ps pp.
  Proof.
    unfold all_mi. rewrite map_app, !map_map. unfold Qs, Ps. f_equal.
    - apply (nth_ext _ _ 0 0); [rewrite !map_length, seq_length; reflexivity|]. intros n Hn. rewrite map_length, seq_length in Hn.
      rewrite (nth_map' _ _ _ 0%nat) by (rewrite seq_length; exact Hn). rewrite seq_nth by exact Hn. rewrite (nth_map' _ _ _ dmod) by exact Hn. reflexivity.
    - apply (nth_ext _ _ 0 0); [rewrite !map_length, seq_length; reflexivity|]. intros n Hn. rewrite map_length, seq_length in Hn.
      rewrite (nth_map' _ _ _ 0%nat) by (rewrite seq_length; exact Hn). rewrite seq_nth by exact Hn. rewrite (nth_map' _ _ _ dmod) by exact Hn. reflexivity.
  Qed.
  Lemma all_mi_vi i : In i (all_mi pp) -> vi pp (maxLevel pp) i.
  Proof.
    pose proof (wf_Qpos _ _ WF). unfold all_mi. rewrite in_app_iff, !in_map_iff. intros [(j & <- & I)|(j & <- & I)]; apply in_seq in I; cbn; unfold maxLevel; lia.
  Qed.
  Lemma lift_all_ok (f : mi -> R) (d : R) B : (forall i, vi pp (maxLevel pp) i -> eqm (qmod pp i) (f i) d) -> bnd d B -> 2 * B < QPprod pp -> lift_all pp f = d.
  Proof.
    intros F BD S. destruct (wf_base _ _ WF) as [ND PQ].
    assert (PR : forall q, In q (Qs pp ++ Ps pp) -> prime q) by (intros q I; rewrite Forall_forall in PQ; apply PQ; exact I).
    assert (MP0 : 0 < QPprod pp) by (apply prodl_pos; intros y Hy; apply PR in Hy; apply prime_ge_2 in Hy; lia).
    apply R_ext. intros x Hx. unfold lift_all. rewrite co_mkR by assumption.
    apply centre_ok; [exact MP0| |specialize (BD x Hx); lia].
    set (l := map (fun i => (qmod pp i, co (f i) x)) (all_mi pp)).
    assert (EL : map fst l = Qs pp ++ Ps pp) by (unfold l; rewrite map_map; cbn [fst]; apply all_mi_moduli).
    unfold QPprod. rewrite <- EL. apply crt_ok; [rewrite EL; exact ND|rewrite EL; exact PR|].
    intros qr I. unfold l in I. apply in_map_iff in I. destruct I as (i & <- & I). cbn [fst snd].
    apply (proj1 (eqm_co _ _ _) (F i (all_mi_vi i I)) x Hx).
  Qed.

  Lemma okm_mi i : vi pp (maxLevel pp) i -> okmod (N := N) (md pp i).
  Proof. intros V. pose proof (wf_Qpos _ _ WF). apply (okmod_md pp WF (maxLevel pp)); [unfold maxLevel; lia|exact V]. Qed.

  Lemma W_unM m (a : R) : okmod (N := N) m -> eqm (mq m) (smul W (unM m a)) (intt m a).
  Proof.
    intros K. apply eqm_co. intros x Hx. unfold unM. rewrite !co_smul. change (eqz (mq m) (W * (invm (mq m) W * co (intt m a) x)) (co (intt m a) x)).
    assert (X : eqz (mq m) (W * invm (mq m) W) 1).
    { apply invm_eqz; [apply K|]. intros D. pose proof (okq_W _ (proj2 K)) as G. pose proof (okq_lt _ (proj2 K)).
      assert (mq m | Z.gcd W (mq m)) by (apply Z.gcd_greatest; [exact D|reflexivity]). rewrite G in H0. apply Z.divide_1_r_nonneg in H0; lia. }
    rewrite Z.mul_assoc, X. apply eqz_eq. ring.
  Qed.

  (** the first attack *)
  Lemma attack1_ok B (e eb s : R) (pk : publicKey N) (rlk : relinKey N) (c : swk N) j :
    (forall i, vi pp (maxLevel pp) i -> rep (md pp i) (fqp (pk0 pk) i) (sub e (mul s (raw_val pp (nth 0 c dQP) i)))) ->
    pk1 pk = nth 0 c dQP ->
    mval pp (maxLevel pp) (nth 0 (rlk_b rlk) dQP) (fun i => sub eb (mul s (swk_val pp c 0 i))) ->
    bnd e B -> bnd eb B -> bnd s B -> 2 * B < W -> 2 * ((W + 1) * B) < QPprod pp ->
    (j <= maxLevel pp)%nat -> 2 * B < mq (Qi pp j) -> (forall x, (x < N)%nat -> ~ (mq (Qi pp j) | co (row (qpQ (nth 0 c dQP)) j) x)) ->
    pk_error pp pk rlk = e /\ attack_pk_rlk pp j pk rlk = s.
  Proof.
    intros P0 P1 BV BE BB BS HW HM Hj Hq NZ.
    assert (D : lift_all pp (fun i => sub (intt (md pp i) (fqp (nth 0 (rlk_b rlk) dQP) i)) (intt (md pp i) (fqp (pk0 pk) i))) = sub (smul W eb) e).
    { apply (lift_all_ok _ _ ((W + 1) * B)); [|  |exact HM].
      - intros i V. pose proof (okm_mi i V) as K. destruct (BV i V) as [_ M]. pose proof (P0 i V) as Rp. unfold repM, rep in *. unfold qmod. rewrite M, Rp.
        unfold swk_val, raw_val. pose proof (W_unM _ (fqp (nth 0 c dQP) i) K) as U.
        replace (smul W (sub eb (mul s (unM (md pp i) (fqp (nth 0 c dQP) i))))) with (sub (smul W eb) (mul s (smul W (unM (md pp i) (fqp (nth 0 c dQP) i))))) by (rewrite !smul_cst; ring).
        rewrite U. match goal with |- eqm _ ?l ?r => replace l with r by ring end. reflexivity.
      - replace ((W + 1) * B) with (Z.abs W * B + B) by (unfold W; lia). apply bnd_sub; [apply bnd_smul|]; assumption. }
    assert (E : pk_error pp pk rlk = e).
    { unfold pk_error. rewrite D. apply R_ext. intros x Hx. rewrite co_mkR by assumption. rewrite co_sub, co_smul. apply centre_ok; [unfold W; lia| |specialize (BE x Hx); lia].
      exists (- co eb x). ring. }
    split; [exact E|]. unfold attack_pk_rlk. rewrite E, P1. cbv zeta. set (m := Qi pp j) in *.
    assert (V : vi pp (maxLevel pp) (MQ j)) by exact Hj. pose proof (okm_mi _ V) as K. cbn [md] in K. fold m in K. pose proof K as [K1 K2].
    set (ah := row (qpQ (nth 0 c dQP)) j).
    assert (T : eqm (mq m) (sub e (intt m (row (qpQ (pk0 pk)) j))) (mul s (intt m ah))).
    { pose proof (P0 _ V) as Rp. unfold rep in Rp. cbn [md fqp] in Rp. fold m in Rp. rewrite Rp. unfold raw_val. cbn [md fqp]. fold m. fold ah.
      match goal with |- eqm _ ?l ?r => replace l with r by ring end. reflexivity. }
    rewrite (ntt_eqm m K1 _ _ T).
    assert (H : eqm (mq m) (mkR (fun x => co (ntt m (mul s (intt m ah))) x * invm (mq m) (co ah x))) (ntt m s)).
    { apply eqm_co. intros x Hx. rewrite co_mkR by assumption.
      pose proof (proj1 (eqm_co _ _ _) (ntt_mul m K1 s (intt m ah)) x Hx) as H1. fold (eqz (mq m) (co (ntt m (mul s (intt m ah))) x) (co (had (ntt m s) (ntt m (intt m ah))) x)) in H1.
      pose proof (proj1 (eqm_co _ _ _) (ntt_intt m K1 ah) x Hx) as H2. fold (eqz (mq m) (co (ntt m (intt m ah)) x) (co ah x)) in H2.
      unfold had in H1. rewrite co_mkR in H1 by assumption.
      change (eqz (mq m) (co (ntt m (mul s (intt m ah))) x * invm (mq m) (co ah x)) (co (ntt m s) x)).
      rewrite H1, H2, <- Z.mul_assoc. rewrite (invm_eqz (mq m) (co ah x)); [apply eqz_eq; ring|apply K1|apply NZ; exact Hx]. }
    rewrite (intt_eqm m K1 _ _ H).
    apply R_ext. intros x Hx. rewrite co_mkR by assumption. apply centre_ok; [apply okq_lt in K2; lia| |specialize (BS x Hx); lia].
    apply (proj1 (eqm_co _ _ _) (intt_ntt m K1 s) x Hx).
  Qed.

  (** the second attack *)
  Lemma attack2_ok B (e eb s : R) (rlk : relinKey N) (rk : rotKey N) (c : swk N) :
    mval pp (maxLevel pp) (nth 0 (rlk_b rlk) dQP) (fun i => sub eb (mul s (swk_val pp c 0 i))) ->
    mval pp (maxLevel pp) (nth 0 (rtk_val rk) dQP) (fun i => sub (add e (mul (gad pp 0 i) s)) (mul s (swk_val pp c 0 i))) ->
    bnd e B -> bnd eb B -> bnd s B -> 4 * B < mq (Pi pp 0) -> 2 * B < mq (Qi pp 0) ->
    attack_rlk_rot0 pp rlk rk = s.
  Proof.
    intros BV RV BE BB BS HP HQ. unfold attack_rlk_rot0. cbv zeta.
    assert (DF : forall i, vi pp (maxLevel pp) i -> eqm (qmod pp i) (sub (unM (md pp i) (fqp (nth 0 (rtk_val rk) dQP) i)) (unM (md pp i) (fqp (nth 0 (rlk_b rlk) dQP) i))) (add (sub e eb) (mul (gad pp 0 i) s))).
    { intros i V. pose proof (okm_mi i V) as K. destruct (BV i V) as [_ M1]. destruct (RV i V) as [_ M2]. unfold qmod.
      rewrite <- (repM_unM_eq _ _ _ K M1), <- (repM_unM_eq _ _ _ K M2). match goal with |- eqm _ ?l ?r => replace l with r by ring end. reflexivity. }
    assert (VP : vi pp (maxLevel pp) (MP 0)) by (cbn; pose proof (wf_alpha _ _ WF); unfold alpha in *; destruct (length (Pm pp)); [rewrite Nat.div_0_l in *; [lia|pose proof (wf_gam _ _ WF); lia]|lia]).
    assert (VQ : vi pp (maxLevel pp) (MQ 0)) by (cbn; lia).
    pose proof (DF _ VP) as D1. pose proof (DF _ VQ) as D2. pose proof (okm_mi _ VP) as KP. pose proof (okm_mi _ VQ) as KQ. unfold qmod in *. cbn [md] in *.
    cbn [gad] in D1. replace (add (sub e eb) (mul R0 s)) with (sub e eb) in D1 by ring.
    cbn [gad] in D2. pose proof (wf_alpha _ _ WF) as AL. destruct (Nat.leb_spec (0 * alpha pp) 0); [|lia]. destruct (Nat.ltb_spec 0 ((0 + 1) * alpha pp)); [|lia]. cbn [andb] in D2.
    apply R_ext. intros x Hx. rewrite !co_mkR by assumption.
    assert (F : centre (mq (Pi pp 0)) (co (sub (unM (Pi pp 0) (fqp (nth 0 (rtk_val rk) dQP) (MP 0))) (unM (Pi pp 0) (fqp (nth 0 (rlk_b rlk) dQP) (MP 0)))) x) = co (sub e eb) x).
    { apply centre_ok; [destruct KP as [_ KP]; apply okq_lt in KP; lia|apply (proj1 (eqm_co _ _ _) D1 x Hx)|].
      rewrite co_sub. specialize (BE x Hx). specialize (BB x Hx). lia. }
    rewrite F. apply centre_ok; [destruct KQ as [_ KQ]; apply okq_lt in KQ; lia| |specialize (BS x Hx); lia].
    pose proof (proj1 (eqm_co _ _ _) D2 x Hx) as X. rewrite co_add, mul_cst, co_smul in X.
    fold (eqz (mq (Qi pp 0)) (co (sub (unM (Qi pp 0) (fqp (nth 0 (rtk_val rk) dQP) (MQ 0))) (unM (Qi pp 0) (fqp (nth 0 (rlk_b rlk) dQP) (MQ 0)))) x) (co (sub e eb) x + Pprod pp * co s x)) in X.
    rewrite X. replace (co (sub e eb) x + Pprod pp * co s x - co (sub e eb) x) with (Pprod pp * co s x) by ring.
    rewrite Z.mul_assoc, (Z.mul_comm (invm _ _)). rewrite invm_eqz; [apply eqz_eq; ring|apply KQ|].
    destruct (wf_base _ _ WF) as [ND PQ]. pose proof (wf_Qpos _ _ WF) as QP0. apply prime_divide_prodl.
    - apply KQ.
    - intros y Hy. rewrite Forall_forall in PQ. apply PQ. apply in_app_iff. right. exact Hy.
    - intros I. assert (I2 : In (mq (Qi pp 0)) (Qs pp)) by (apply in_map; apply nth_In; exact QP0).
      revert ND I I2. clear. generalize (Qs pp) as l, (Ps pp) as l', (mq (Qi pp 0)) as z. induction l as [|y l IH]; cbn; intros l' z ND I I2; [destruct I2|].
      inversion ND; subst. destruct I2 as [->|I2]; [apply H1; apply in_app_iff; right; exact I|apply (IH l' z); assumption].
    - lia.
  Qed.
End Leak.

(** The public key and the relinearisation key of a party reveal its secret: both mask their first component with the same
    CRS polynomial, once read as a plain and once as a Montgomery-form row.  [smp], [sb], ... are arbitrary sampler outputs of
    norm at most B; the only condition on the CRS is that some row Q_j of its first digit has no zero entry. *)
Theorem C36_public_key_and_relinearisation_key_refuted :
  forall N pp B e eb ed ev smp sb sd sv crs a u sk r (s rr : R N) j, wfp N pp -> small_ok pp B ->
  is_sample pp B e smp ->
  (forall k, (k < beta pp (maxLevel pp))%nat -> is_sample pp B (eb k) (sb k) /\ is_sample pp B (ed k) (sd k) /\ is_sample pp B (ev k) (sv k)) ->
  mval pp (maxLevel pp) (sk_val sk) (fun _ => s) -> bnd s B -> mval pp (maxLevel pp) (sk_val r) (fun _ => rr) ->
  mget Z.eq_dec crs 0 = Some a -> mget Z.eq_dec crs (-1) = Some u -> crs_ok pp a -> crs_ok pp u ->
  2 * B < 2 ^ 64 -> 2 * ((2 ^ 64 + 1) * B) < QPprod pp -> (j <= maxLevel pp)%nat -> 2 * B < mq (Qi pp j) ->
  (forall x, (x < N)%nat -> ~ (mq (Qi pp j) | co (row (qpQ (nth 0 a dQP)) j) x)) ->
  exists pk rlk, GenPublicKey pp crs sk smp = Ok pk /\ GenRelinearizationKey pp crs sk r sb sd sv = Ok rlk /\
    pk_error pp pk rlk = e /\ attack_pk_rlk pp j pk rlk = s.
Proof.
  intros N pp B e eb ed ev smp sb sd sv crs a u sk r s rr j WF SO SE SS MS BS MR GA GU CA CU HW HM Hj Hq NZ.
  pose proof (wf_Qpos _ _ WF) as QP0. assert (BP : (0 < beta pp (maxLevel pp))%nat) by (apply (beta_pos pp WF); unfold maxLevel; lia).
  destruct (GenRelinearizationKey_ok pp WF B eb ed ev sb sd sv crs a u sk r s rr SO SS MS MR GA GU CA CU) as (rlk & R1 & _ & _ & _ & _ & R2).
  destruct (C13_public_key N pp B e smp crs a sk s WF SO SE MS GA CA) as (pk & P1 & _ & P2).
  exists pk, rlk. split; [exact P1|]. split; [exact R1|].
  apply (attack1_ok pp WF B e (eb 0%nat) s pk rlk a j); trivial.
  - intros i V. apply P2. exact V.
  - unfold GenPublicKey, crs_get in P1. rewrite GA in P1. cbn [rbind] in P1. destruct CA as [LA _]. destruct a as [|a0 a']; [cbn in LA; lia|].
    cbn in P1. injection P1 as <-. reflexivity.
  - apply R2. exact BP.
  - apply SE.
  - apply (SS 0%nat BP).
Qed.
Print Assumptions C36_public_key_and_relinearisation_key_refuted.

(** So do the relinearisation key and a rotation key for index 0, without any condition on the CRS *)
Theorem C36_relinearisation_key_and_rotation_key_zero_refuted :
  forall N pp B eb ed ev e sb sd sv smp crs a u sk r (s rr : R N), wfp N pp -> small_ok pp B ->
  (forall k, (k < beta pp (maxLevel pp))%nat -> is_sample pp B (eb k) (sb k) /\ is_sample pp B (ed k) (sd k) /\ is_sample pp B (ev k) (sv k) /\ is_sample pp B (e k) (smp k)) ->
  mval pp (maxLevel pp) (sk_val sk) (fun _ => s) -> bnd s B -> mval pp (maxLevel pp) (sk_val r) (fun _ => rr) ->
  mget Z.eq_dec crs 0 = Some a -> mget Z.eq_dec crs (-1) = Some u -> crs_ok pp a -> crs_ok pp u -> 4 * B < mq (Pi pp 0) ->
  exists rlk rk, GenRelinearizationKey pp crs sk r sb sd sv = Ok rlk /\ GenRotationKey pp crs 0 sk smp = Ok rk /\ attack_rlk_rot0 pp rlk rk = s.
Proof.
  intros N pp B eb ed ev e sb sd sv smp crs a u sk r s rr WF SO SS MS BS MR GA GU CA CU HP.
  pose proof (wf_Qpos _ _ WF) as QP0. assert (BP : (0 < beta pp (maxLevel pp))%nat) by (apply (beta_pos pp WF); unfold maxLevel; lia).
  destruct (GenRelinearizationKey_ok pp WF B eb ed ev sb sd sv crs a u sk r s rr SO) as (rlk & R1 & _ & _ & _ & _ & R2); trivial.
  { intros k Hk. destruct (SS k Hk) as (X1 & X2 & X3 & _). split; [exact X1|split; assumption]. }
  destruct (C13_rotation_key N pp B e smp crs 0 a sk s WF SO ltac:(lia)) as (rk & t & K1 & _ & _ & _ & K2 & K3); trivial.
  { intros k Hk. apply (SS k Hk). }
  assert (ET : t = s) by (rewrite <- K2; change (5 ^ 0) with 1; rewrite (galois_aut 1 1), aut_1; trivial; [|exists 0; reflexivity]; destruct (wf_N _ _ WF); lia). subst t.
  exists rlk, rk. split; [exact R1|]. split; [exact K1|]. apply (attack2_ok pp WF B (e 0%nat) (eb 0%nat) s rlk rk a); trivial.
  - apply R2. exact BP.
  - apply K3. exact BP.
  - apply (SS 0%nat BP).
  - apply (SS 0%nat BP).
  - apply SO.
Qed.
Print Assumptions C36_relinearisation_key_and_rotation_key_zero_refuted.

(** parameters that meet the hypotheses: N = 8, five primes of 16 bits *)
Definition ex2_pp : rparams := RP [Mod 60449 905; Mod 60497 742; Mod 61057 86] [Mod 61297 996; Mod 61409 551] 1.
Lemma ex2_wf : wfp 8 ex2_pp.
Proof.
  assert (F : Forall (okmod (N := 8)) (Qm ex2_pp ++ Pm ex2_pp)).
  { cbn. repeat (constructor; [apply ex_okm; [vm_compute; reflexivity|cbn [mq]; lia|vm_compute; reflexivity]|]). constructor. }
  assert (OB : okbase (Qs ex2_pp ++ Ps ex2_pp)).
  { split.
    - cbn [Qs Ps ex2_pp Qm Pm map mq app]. repeat (constructor; [cbn; intuition discriminate|]). constructor.
    - unfold Qs, Ps. rewrite <- map_app. apply Forall_map. apply (Forall_impl _ (P := okmod (N := 8))); [|exact F]. intros m H. apply H. }
  assert (A : alpha ex2_pp = 2%nat) by reflexivity.
  constructor; trivial; rewrite ?A; cbn [ex2_pp Qm Pm gam length]; lia.
Qed.
Example C36_nonvacuous : let a := crs_entry ex2_pp (ex_u 0) in let u := crs_entry ex2_pp (ex_u (-1)) in
  wfp 8 ex2_pp /\ small_ok ex2_pp 3 /\ is_sample ex2_pp 3 ex_s (rows_of ex2_pp ex_s) /\ is_sample ex2_pp 3 (ex_e 0) (rows_of ex2_pp (ex_e 0)) /\
  mval ex2_pp (maxLevel ex2_pp) (sk_val (genSecretKeyFromSampler ex2_pp "a" (rows_of ex2_pp ex_s))) (fun _ => ex_s) /\ bnd ex_s 3 /\
  mget Z.eq_dec (NewCRS ex2_pp 3 ex_u) 0 = Some a /\ mget Z.eq_dec (NewCRS ex2_pp 3 ex_u) (-1) = Some u /\ crs_ok ex2_pp a /\ crs_ok ex2_pp u /\
  2 * ((2 ^ 64 + 1) * 3) < QPprod ex2_pp /\ 4 * 3 < mq (Pi ex2_pp 0) /\
  (forall x, (x < 8)%nat -> ~ (mq (Qi ex2_pp 0) | co (row (qpQ (nth 0 a dQP)) 0) x)).
Proof.
  assert (SO : small_ok ex2_pp 3) by (split; [cbn; lia|]; intros k Hk; cbn in Hk; do 2 (destruct k as [|k]; [vm_compute; discriminate|]); lia).
  assert (BS : bnd ex_s 3) by (apply bnd_poly; [lia|reflexivity]).
  assert (SS : is_sample ex2_pp 3 ex_s (rows_of ex2_pp ex_s)) by (apply rows_of_sample; [apply ex2_wf|exact BS]).
  assert (CO : forall i, -4 <= i <= 2 -> crs_ok ex2_pp (crs_entry ex2_pp (ex_u i))).
  { intros i Hi. apply (crs_entry_ok ex2_pp ex2_wf). intros k Hk. assert (B : beta ex2_pp (maxLevel ex2_pp) = 2%nat) by (vm_compute; reflexivity).
    rewrite B in Hk. intros [j|j] V x Hx; cbn in V; cbn [fqp ex_u qpQ qpP]; unfold row;
    rewrite nth_tab by lia; rewrite co_mkR by assumption; unfold W; lia. }
  cbv zeta. split; [apply ex2_wf|]. split; [exact SO|]. split; [exact SS|]. split; [apply rows_of_sample; [apply ex2_wf|apply bnd_poly; [lia|reflexivity]]|].
  split; [apply (genSecretKey_ok ex2_pp ex2_wf 3); assumption|]. split; [exact BS|]. split; [reflexivity|]. split; [reflexivity|].
  split; [apply CO; lia|]. split; [apply CO; lia|]. split; [vm_compute; reflexivity|]. split; [vm_compute; reflexivity|].
  intros x Hx D. apply Z.mod_divide in D; [|vm_compute; discriminate].
  do 8 (destruct x as [|x]; [vm_compute in D; discriminate D|]). lia.
Qed.
