(** Key generation equations (C13). *)
From Verif Require Import Base NumTheory Negacyclic Ntt Word FloatModel BasisExt BasisExtProofs DecompProofs Rows RlweModel SchemeSpec ExtProd ExtProps KeyGenModel Galois.
From Coq Require Import Znumtheory Setoid Morphisms.
Open Scope Z_scope.

Section Values.
  Context {N : nat}.
  Notation R := (R N).
  Lemma repM_unM m (a : R) : okmod (N := N) m -> repM m a (unM m a).
  Proof.
    intros [K O]. unfold repM, unM. apply eqm_co. intros i Hi. rewrite !co_smul. rewrite Z.mul_assoc.
    assert (E : eqz (mq m) (W * invm (mq m) W) 1) by (apply invm_eqz; [apply O|apply W_nd; apply O]).
    fold (eqz (mq m) (co (intt m a) i) (W * invm (mq m) W * co (intt m a) i)). rewrite E. apply eqz_eq. ring.
  Qed.
  Lemma repM_unM_eq m (a x : R) : okmod (N := N) m -> repM m a x -> eqm (mq m) x (unM m a).
  Proof.
    intros K X. pose proof (repM_unM m a K) as Y. unfold repM in *. apply (eqm_Wcancel m _ _ (proj2 K)). rewrite <- X. exact Y.
  Qed.
End Values.

Section KG.
  Context {N : nat} (pp : rparams) (WF : wfp N pp).
  Notation R := (R N).
  Notation mval := (mval pp). Notation gad := (gad pp). Notation L := (maxLevel pp).
  Notation crs_ok := (@crs_ok N pp). Notation swk_val := (@swk_val N pp). Notation wordsQP := (@wordsQP N pp).
  Notation is_sample := (@is_sample N pp). Notation raw_val := (@raw_val N pp). Notation small_ok := (small_ok pp). Notation dQP := (@dQP N).
  Add Ring R_ring5 : (@R_ring_theory N).
  Lemma eqm_eq q (x y : R) : x = y -> eqm q x y.
  Proof. intros ->. reflexivity. Qed.

  Lemma L_lt : (L < length (Qm pp))%nat.
  Proof. pose proof (wf_Qpos _ _ WF). unfold maxLevel. lia. Qed.
  Lemma okm_of i : vi pp L i -> okmod (N := N) (md pp i).
  Proof. apply okmod_md; [assumption|apply L_lt]. Qed.
  Lemma pow2N : pow2 N.
  Proof. destruct (okm_of (MQ 0) ltac:(cbn; lia)) as [(_ & _ & X & _) _]. exact X. Qed.
  Lemma vi_mono level i : (level < length (Qm pp))%nat -> vi pp level i -> vi pp L i.
  Proof. intros H. destruct i; cbn; [unfold maxLevel; lia|trivial]. Qed.
  Lemma mval_mono level x (f : mi -> R) : (level < length (Qm pp))%nat -> mval L x f -> mval level x f.
  Proof. intros H M i V. apply M. apply (vi_mono level); assumption. Qed.
  Lemma beta_mono level : (level < length (Qm pp))%nat -> (beta pp level <= beta pp L)%nat.
  Proof.
    intros H. pose proof (wf_alpha _ _ WF). pose proof (wf_Q _ _ WF). pose proof L_lt.
    destruct (beta_exact level (alpha pp)) as [A _]; try lia. destruct (beta_exact L (alpha pp)) as [B _]; try lia.
    unfold beta. rewrite A, B. apply Nat.div_le_mono; [lia|]. unfold maxLevel. lia.
  Qed.
  Lemma mval_eqm level x (f g : mi -> R) : mval level x f -> (forall i, vi pp level i -> eqm (qmod pp i) (f i) (g i)) -> mval level x g.
  Proof. intros M E i V. destruct (M i V) as [A B]. split; [assumption|]. apply (repM_eqm _ _ _ _ B). apply E. assumption. Qed.

  (** *** the CRS *)
  Lemma swk_mval key k : crs_ok key -> (k < beta pp L)%nat -> mval L (nth k key dQP) (swk_val key k).
  Proof. intros [_ H] K i V. split; [apply H; assumption|]. apply repM_unM. apply okm_of. assumption. Qed.

  Lemma crs_entry_ok u : (forall k, (k < beta pp L)%nat -> wordsQP (u k)) -> crs_ok (crs_entry pp u).
  Proof.
    intros H. unfold crs_entry. split; [rewrite tab_length; lia|]. intros k i K V. rewrite nth_tab by assumption.
    rewrite fqp_lvl1 by assumption. apply canon_inr. apply r_mform_ok; [apply okm_of; assumption|]. apply H; assumption.
  Qed.

  (** *** sampled polynomials *)

  Lemma ext_small_ok q0 p c e B : okq q0 -> okq p -> 0 <= c <= q0 -> eqz q0 c e -> Z.abs e <= B -> 2 * B < q0 -> B <= p ->
    0 <= ext_small q0 p c <= p /\ eqz p (ext_small q0 p c) e \/ ext_small q0 p c = e.
  Proof.
    intros K0 K C E A B1 B2. pose proof (okq_lt _ K0) as Q0. pose proof (okq_lt _ K) as QP. unfold ext_small.
    pose proof (Z.div_mod q0 2 ltac:(lia)) as DM. pose proof (Z.mod_pos_bound q0 2 ltac:(lia)).
    destruct E as [z Hz].
    destruct (Z.ltb_spec (q0 / 2) c) as [H1|H1].
    - left. assert (c - q0 = e).
      { assert (z = 1) by nia. lia. }
      assert (E1 : w64 (q0 - c) = q0 - c) by (apply Z.mod_small; lia). rewrite E1.
      assert (E2 : w64 (p - (q0 - c)) = p - (q0 - c)) by (apply Z.mod_small; lia). rewrite E2.
      split; [lia|]. exists 1. lia.
    - right. assert (z = 0) by nia. lia.
  Qed.
  Lemma extP_ok B e smp i : small_ok B -> is_sample B e smp -> vi pp L i -> eqm (qmod pp i) (fqp (extP pp smp) i) e.
  Proof.
    intros [S1 S2] [H1 H2] V. destruct i as [j|k]; cbn [vi] in V.
    - apply H2. assumption.
    - unfold extP. cbn [fqp qpP]. unfold row at 1. rewrite nth_tab by assumption. apply eqm_co. intros x Hx. rewrite co_mkR by assumption.
      destruct (H2 0%nat ltac:(lia)) as [A0 E0]. specialize (A0 x Hx). pose proof (proj1 (eqm_co _ _ _) E0 x Hx) as E1.
      destruct (ext_small_ok (mq (Qi pp 0)) (mq (Pi pp k)) (co (row smp 0) x) (co e x) B) as [[_ X]|X]; trivial.
      + apply (okm_of (MQ 0)). cbn. lia.
      + apply (okm_of (MP k)). assumption.
      + apply H1. assumption.
      + apply S2. assumption.
      + rewrite X. exists 0. unfold qmod. ring.
  Qed.
  Lemma gauss_ok B e smp i : small_ok B -> is_sample B e smp -> vi pp L i ->
    canon (md pp i) (fqp (GenGaussianError pp smp) i) /\ rep (md pp i) (fqp (GenGaussianError pp smp) i) e.
  Proof.
    intros S H V. unfold GenGaussianError. rewrite fqp_lvl1 by assumption. pose proof (okm_of i V) as K. split; [apply ntt_canon; assumption|].
    apply (rep_eqm _ _ (fqp (extP pp smp) i)); [apply rep_ntt; assumption|]. apply (extP_ok B); assumption.
  Qed.
  Lemma gaussM_ok B e smp : small_ok B -> is_sample B e smp -> mval L (lvl1 pp L r_mform (GenGaussianError pp smp)) (fun _ => e).
  Proof.
    intros S H i V. rewrite fqp_lvl1 by assumption. pose proof (okm_of i V) as K. destruct (gauss_ok B e smp i S H V) as [A X].
    pose proof (canon_wrd _ _ (proj2 K) A) as WA. split; [apply canon_inr; apply r_mform_ok; [apply K|assumption]|]. apply rep_mform; assumption.
  Qed.
  Theorem genSecretKey_ok B s id smp : small_ok B -> is_sample B s smp -> mval L (sk_val (genSecretKeyFromSampler pp id smp)) (fun _ => s).
  Proof. apply gaussM_ok. Qed.

  (** *** public key: the second component is the CRS polynomial as stored, that is W times its value *)
  Theorem GenPublicKey_ok B e smp crs c sk (s : R) : small_ok B -> is_sample B e smp -> mval L (sk_val sk) (fun _ => s) ->
    mget Z.eq_dec crs 0 = Some c -> crs_ok c ->
    exists pk, GenPublicKey pp crs sk smp = Ok pk /\ pk_id pk = sk_id sk /\ pk1 pk = nth 0 c dQP /\
      forall i, vi pp L i -> inr (md pp i) (fqp (pk0 pk) i) /\ inr (md pp i) (fqp (pk1 pk) i) /\
        rep (md pp i) (fqp (pk0 pk) i) (sub e (mul s (raw_val (nth 0 c dQP) i))) /\ rep (md pp i) (fqp (pk1 pk) i) (raw_val (nth 0 c dQP) i).
  Proof.
    intros S H K G [LC C]. unfold GenPublicKey, crs_get. rewrite G. cbn [rbind].
    pose proof (beta_pos pp WF L L_lt) as BP.
    rewrite (idx_nth c 0 dQP) by lia. cbn [rbind]. eexists. split; [reflexivity|]. cbn [pk_id pk0 pk1]. split; [reflexivity|]. split; [reflexivity|].
    intros i V. rewrite fqp_lvl3 by assumption. pose proof (okm_of i V) as KM. destruct (gauss_ok B e smp i S H V) as [A X].
    destruct (K i V) as [K1 K2]. pose proof (C 0%nat i BP V) as CI.
    destruct (rep_mont_sub (md pp i) (fqp (sk_val sk) i) (fqp (nth 0 c dQP) i) (fqp (GenGaussianError pp smp) i) s (raw_val (nth 0 c dQP) i) e) as [Y1 Y2]; trivial.
    - apply (inr_wrd (md pp i)); [apply KM|assumption].
    - apply canon_inr. assumption.
    - unfold rep, raw_val. reflexivity.
    - split; [assumption|]. split; [assumption|]. split; [assumption|]. unfold rep, raw_val. reflexivity.
  Qed.

  (** *** switching key *)
  Lemma row_tab n (f : nat -> R) j : (j < n)%nat -> row (tab n f) j = f j.
  Proof. intros H. unfold row. apply nth_tab. assumption. Qed.
  Lemma r_scal_ok m z (a x : R) : okmod (N := N) m -> inr m a -> repM m a x -> canon m (r_scal m z a) /\ repM m (r_scal m z a) (smul z x).
  Proof.
    intros [K O] A X. pose proof (okq_lt _ O) as QL. set (c := mform (z mod mq m) (mq m) (bred_params (mq m))).
    destruct (mform_mont (z mod mq m) (mq m) O) as [C1 C2]; [pose proof (Z.mod_pos_bound z (mq m) ltac:(lia)); lia|]. fold c in C1, C2.
    assert (E : forall i, (i < N)%nat -> 0 <= co (r_scal m z a) i < mq m /\ eqz (mq m) (co (r_scal m z a) i) (z * co a i)).
    { intros i Hi. unfold r_scal. fold c. rewrite co_mkR by assumption. specialize (A i Hi).
      destruct (mred_mont (co a i) c z (mq m) O) as [M1 M2]; trivial; [lia| |].
      - rewrite C2. apply eqz_mul; [apply eqz_mod|reflexivity].
      - split; [assumption|]. rewrite M2. apply eqz_eq. ring. }
    split; [intros i Hi; apply E; assumption|]. unfold repM in *.
    rewrite (intt_eqm m K _ (smul z a)).
    - rewrite (intt_smul m K), X, !smul_cst. apply eqm_eq; ring.
    - apply eqm_co. intros i Hi. rewrite co_smul. apply E. assumption.
  Qed.

  Theorem GenSwitchingKey_ok B (e : nat -> R) smp sk (s : R) : small_ok B -> (forall k, (k < beta pp L)%nat -> is_sample B (e k) (smp k)) ->
    mval L sk (fun _ => s) ->
    length (GenSwitchingKey pp sk smp) = beta pp L /\
    forall k, (k < beta pp L)%nat -> mval L (nth k (GenSwitchingKey pp sk smp) dQP) (fun i => add (e k) (mul (gad k i) s)).
  Proof.
    intros S H K. unfold GenSwitchingKey. split; [apply tab_length|]. intros k Hk i V. rewrite nth_tab by assumption.
    pose proof (okm_of i V) as KM. destruct (gaussM_ok B (e k) (smp k) S (H k Hk) i V) as [A X].
    destruct i as [j|p]; cbn [fqp md qpQ qpP gad SchemeSpec.gad] in *.
    - rewrite !row_tab by (cbn in V; lia). replace (k * alpha pp + alpha pp)%nat with ((k + 1) * alpha pp)%nat by lia.
      destruct ((k * alpha pp <=? j) && (j <? (k + 1) * alpha pp))%nat.
      + destruct (K (MQ j) V) as [K1 K2]. cbn [fqp md] in K1, K2. destruct (r_scal_ok (Qi pp j) (Pprod pp) _ s KM K1 K2) as [Y1 Y2].
        split; [apply r_add_ok; [apply KM|assumption|apply canon_inr; assumption]|].
        rewrite <- smul_cst. apply repM_add; trivial. apply canon_inr. assumption.
      + split; [assumption|]. apply (repM_eqm _ _ _ _ X). apply eqm_eq; ring.
    - split; [assumption|]. apply (repM_eqm _ _ _ _ X). apply eqm_eq; ring.
  Qed.

  Lemma swk_zip_ok f a x : (beta pp L <= length a)%nat -> (beta pp L <= length x)%nat ->
    swk_zip pp f a x = Ok (tab (beta pp L) (fun k => f (nth k a dQP) (nth k x dQP))).
  Proof.
    intros A X. unfold swk_zip, tab. apply rmapM_map. intros k Hk. apply in_seq in Hk.
    rewrite (idx_nth a k dQP), (idx_nth x k dQP) by lia. reflexivity.
  Qed.

  (** *** relinearisation key *)
  Theorem GenRelinearizationKey_ok B eb ed ev (sb sd sv : nat -> list R) crs a u sk r s rr : small_ok B ->
    (forall k, (k < beta pp L)%nat -> is_sample B (eb k) (sb k) /\ is_sample B (ed k) (sd k) /\ is_sample B (ev k) (sv k)) ->
    mval L (sk_val sk) (fun _ => s) -> mval L (sk_val r) (fun _ => rr) ->
    mget Z.eq_dec crs 0 = Some a -> mget Z.eq_dec crs (-1) = Some u -> crs_ok a -> crs_ok u ->
    exists rlk, GenRelinearizationKey pp crs sk r sb sd sv = Ok rlk /\ rlk_id rlk = sk_id sk /\
      length (rlk_b rlk) = beta pp L /\ length (rlk_d rlk) = beta pp L /\ length (rlk_v rlk) = beta pp L /\
      forall k, (k < beta pp L)%nat ->
        mval L (nth k (rlk_b rlk) dQP) (fun i => sub (eb k) (mul s (swk_val a k i))) /\
        mval L (nth k (rlk_d rlk) dQP) (fun i => sub (add (ed k) (mul (gad k i) s)) (mul rr (swk_val a k i))) /\
        mval L (nth k (rlk_v rlk) dQP) (fun i => opp (add (add (ev k) (mul (gad k i) rr)) (mul s (swk_val u k i)))).
  Proof.
    intros S H K KR GA GU CA CU. unfold GenRelinearizationKey.
    assert (LP : length (Pm pp) <> 0%nat) by (pose proof (wf_gam _ _ WF); pose proof (wf_alpha _ _ WF); pose proof (gam_alpha_le pp WF); nia).
    destruct (Nat.eqb_spec (length (Pm pp)) 0); [contradiction|]. unfold crs_get. rewrite GA, GU. cbn [rbind].
    rewrite (rmapM_map _ (fun k => lvl1 pp L r_mform (lvl2 pp L r_sub (GenGaussianError pp (sb k)) (lvl1 pp L r_invmform (lvl2 pp L r_mont (nth k a dQP) (sk_val sk)))))).
    2:{ intros k Hk. apply in_seq in Hk. rewrite (idx_nth a k dQP) by (destruct CA; lia). reflexivity. }
    cbn [rbind].
    destruct (GenSwitchingKey_ok B ed sd (sk_val sk) s S ltac:(intros; apply H; assumption) K) as [LD HD].
    destruct (GenSwitchingKey_ok B ev sv (sk_val r) rr S ltac:(intros; apply H; assumption) KR) as [LV HV].
    rewrite swk_zip_ok by (try apply CA; lia). cbn [rbind]. rewrite swk_zip_ok by (try apply CU; lia). cbn [rbind].
    eexists. split; [reflexivity|]. cbn [rlk_id rlk_b rlk_d rlk_v]. split; [reflexivity|].
    split; [apply tab_length|]. split; [apply tab_length|]. split; [apply tab_length|].
    intros k Hk. rewrite !nth_tab by assumption.
    pose proof (nth_tab (beta pp L) (fun k => lvl1 pp L r_mform (lvl2 pp L r_sub (GenGaussianError pp (sb k)) (lvl1 pp L r_invmform (lvl2 pp L r_mont (nth k a dQP) (sk_val sk))))) k dQP Hk) as NT.
    unfold tab in NT. rewrite NT. clear NT.
    split; [|split]; intros i V; pose proof (okm_of i V) as KM; destruct (K i V) as [K1 K2]; destruct (KR i V) as [R1 R2].
    - destruct (swk_mval a k CA Hk i V) as [A1 A2]. rewrite fqp_lvl1, fqp_lvl2, fqp_lvl1, fqp_lvl2 by assumption.
      destruct (gauss_ok B (eb k) (sb k) i S ltac:(apply H; assumption) V) as [G1 G2].
      pose proof (inr_wrd _ _ (proj2 KM) K1) as KW.
      destruct (r_mont_ok (md pp i) (fqp (nth k a dQP) i) (fqp (sk_val sk) i) (proj2 KM) A1 KW) as [M1 _].
      pose proof (repM_mont _ _ _ _ _ KM A1 KW A2 K2) as M2.
      destruct (r_invmform_ok (md pp i) _ (proj2 KM) (canon_wrd _ _ (proj2 KM) M1)) as [I1 _].
      pose proof (repM_invmform _ _ _ KM (canon_wrd _ _ (proj2 KM) M1) M2) as I2.
      destruct (r_sub_ok (md pp i) _ _ (proj2 KM) (canon_inr _ _ G1) (canon_inr _ _ I1)) as [S1 _].
      pose proof (rep_sub _ _ _ _ _ KM (canon_inr _ _ G1) (canon_inr _ _ I1) G2 I2) as S2.
      pose proof (inr_wrd _ _ (proj2 KM) S1) as SW.
      split; [apply canon_inr; apply r_mform_ok; [apply KM|assumption]|].
      apply (repM_eqm _ _ _ _ (rep_mform _ _ _ KM SW S2)). apply eqm_eq; ring.
    - destruct (swk_mval a k CA Hk i V) as [A1 A2]. rewrite fqp_lvl3 by assumption. destruct (HD k Hk i V) as [D1 D2].
      destruct (repM_mont_sub (md pp i) _ _ _ _ _ _ KM A1 (inr_wrd _ _ (proj2 KM) R1) D1 A2 R2 D2) as [X Y]. split; [assumption|].
      apply (repM_eqm _ _ _ _ Y). apply eqm_eq; ring.
    - destruct (swk_mval u k CU Hk i V) as [A1 A2]. rewrite fqp_lvl1, fqp_lvl3 by assumption. destruct (HV k Hk i V) as [D1 D2].
      destruct (repM_mont_add (md pp i) _ _ _ _ _ _ KM A1 (inr_wrd _ _ (proj2 KM) K1) D1 A2 K2 D2) as [X Y].
      split; [apply r_neg_ok; [apply KM|assumption]|].
      apply (repM_eqm _ _ _ _ (repM_neg _ _ _ KM X Y)). apply eqm_eq; ring.
  Qed.

  (** *** rotation and conjugation keys *)
  Lemma permQP_ok g h (x : polyQP N) (f : mi -> R) : 0 <= g -> Z.odd g = true -> Z.odd h = true -> (2 * Z.of_nat N | g * h - 1) ->
    mval L x f -> mval L (permQP pp g x) (fun i => aut h (f i)).
  Proof.
    intros G0 Og Oh GH M i V. unfold permQP. rewrite fqp_lvl1 by assumption. pose proof (okm_of i V) as KM. destruct (M i V) as [A B]. split.
    - intros j Hj. unfold perm_ntt. rewrite co_mkR by assumption. apply A. apply (perm_idx_spec (md pp i)); [apply KM|assumption].
    - unfold repM in *. rewrite (intt_perm (md pp i) (proj1 KM) g h) by assumption. rewrite B. rewrite aut_smul. reflexivity.
  Qed.

  Theorem GenRotationKey_ok B e (smp : nat -> list R) crs rotidx a0 k a sk (s : R) : small_ok B ->
    (forall j, (j < beta pp L)%nat -> is_sample B (e j) (smp j)) -> mval L (sk_val sk) (fun _ => s) ->
    mget Z.eq_dec crs rotidx = Some a0 -> k = (if rotidx <? 0 then rotidx mod Z.of_nat (N / 2) else rotidx) ->
    mget Z.eq_dec crs k = Some a -> crs_ok a ->
    exists rk, GenRotationKey pp crs rotidx sk smp = Ok rk /\ rtk_id rk = sk_id sk /\ rtk_idx rk = k /\ length (rtk_val rk) = beta pp L /\
      forall j, (j < beta pp L)%nat ->
        mval L (nth j (rtk_val rk) dQP) (fun i => sub (add (e j) (mul (gad j i) s)) (mul (aut (galEl N k) s) (swk_val a j i))).
  Proof.
    intros S H K G0 EK GA CA. unfold GenRotationKey, crs_get. rewrite G0. cbn [rbind]. rewrite norm_rot_ok by apply (wf_N _ _ WF). cbn [rbind]. rewrite <- EK, GA. cbn [rbind].
    destruct (GenSwitchingKey_ok B e smp (sk_val sk) s S H K) as [LD HD].
    rewrite swk_zip_ok by (try apply CA; lia). cbn [rbind]. eexists. split; [reflexivity|]. cbn [rtk_id rtk_idx rtk_val].
    split; [reflexivity|]. split; [reflexivity|]. split; [apply tab_length|]. intros j Hj i V. rewrite nth_tab by assumption. rewrite fqp_lvl3 by assumption.
    pose proof (okm_of i V) as KM. destruct (swk_mval a j CA Hj i V) as [A1 A2]. destruct (HD j Hj i V) as [D1 D2].
    pose proof (galEl_odd N pow2N k) as OG.
    destruct (permQP_ok (invGalEl N (galEl N k)) (galEl N k) (sk_val sk) (fun _ => s)) with (i := i) as [P1 P2']; trivial.
    { apply (invGalEl_range N pow2N). }
    { apply (invGalEl_odd N pow2N). assumption. }
    { rewrite (Z.mul_comm (invGalEl _ _)). apply (invGalEl_ok N pow2N). assumption. }
    destruct (repM_mont_sub (md pp i) _ _ _ _ _ _ KM A1 (inr_wrd _ _ (proj2 KM) P1) D1 A2 P2' D2) as [X Y]. split; [assumption|].
    apply (repM_eqm _ _ _ _ Y). apply eqm_eq; ring.
  Qed.

  Theorem GenConjugationKey_ok B e (smp : nat -> list R) crs a sk (s : R) : small_ok B ->
    (forall j, (j < beta pp L)%nat -> is_sample B (e j) (smp j)) -> mval L (sk_val sk) (fun _ => s) ->
    mget Z.eq_dec crs (-2) = Some a -> crs_ok a ->
    exists ck, GenConjugationKey pp crs sk smp = Ok ck /\ cjk_id ck = sk_id sk /\ length (cjk_val ck) = beta pp L /\
      forall j, (j < beta pp L)%nat ->
        mval L (nth j (cjk_val ck) dQP) (fun i => sub (add (e j) (mul (gad j i) (aut (conjEl N) s))) (mul s (swk_val a j i))).
  Proof.
    intros S H K GA CA. unfold GenConjugationKey, crs_get. rewrite GA. cbn [rbind].
    pose proof (conj_odd N) as OG. pose proof (N_pos N pow2N) as NP.
    pose proof (permQP_ok (conjEl N) (conjEl N) (sk_val sk) (fun _ => s) ltac:(unfold conjEl; lia) OG OG (conj_inv N) K) as KP.
    destruct (GenSwitchingKey_ok B e smp _ (aut (conjEl N) s) S H KP) as [LD HD].
    rewrite swk_zip_ok by (try apply CA; lia). cbn [rbind]. eexists. split; [reflexivity|]. cbn [cjk_id cjk_val].
    split; [reflexivity|]. split; [apply tab_length|]. intros j Hj i V. rewrite nth_tab by assumption. rewrite fqp_lvl3 by assumption.
    pose proof (okm_of i V) as KM. destruct (swk_mval a j CA Hj i V) as [A1 A2]. destruct (HD j Hj i V) as [D1 D2]. destruct (K i V) as [K1 K2].
    destruct (repM_mont_sub (md pp i) _ _ _ _ _ _ KM A1 (inr_wrd _ _ (proj2 KM) K1) D1 A2 K2 D2) as [X Y]. split; [assumption|].
    apply (repM_eqm _ _ _ _ Y). apply eqm_eq; ring.
  Qed.
End KG.
