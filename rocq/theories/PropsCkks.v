(** C18, C19, C26-C30, C44: the mkckks evaluator.
    [phase pp s ct j] (CtSpec.v) is the decryption of ct modulo Q_j under the secrets s (C15_value: what Decrypt returns). *)
From Flocq Require Import Core BinarySingleNaN.
From Coq Require Import Znumtheory Setoid Morphisms Reals Lra.
From Verif Require Import Base IdSetModel IdSetSpec IdSetProofs KeySetModel NumTheory Negacyclic Ntt Word BasisExt BasisExtProofs Rows RlweModel KeyGenModel SchemeSpec ExtProd ExtProps Galois KeyGenProofs Instance CtModel CtSpec CtProofs EncDecProofs HeapModel HeapProofs PropsEnc KeySwitchModel Digits KsLoops RotProofs MulProofs PropsKeySwitch FloatModel CkksFloat CkksModel FloatProofs CkksFloatProofs CkksProofs CkksRescale.
Open Scope Z_scope.

(** c decrypts to the integer polynomial m modulo Q_0 ... Q_level *)
Definition decrypts {N} (pp : rparams) (s : string -> R N) (c : ctT N) (level : nat) (m : R N) : Prop :=
  forall j, (j <= level)%nat -> eqm (mq (Qi pp j)) (phase pp s c j) m.

(** every ciphertext decrypts to some integer polynomial (Chinese remainders) *)
Lemma has_lift {N} (pp : rparams) (f : nat -> R N) : wfp N pp -> forall level, (level < length (Qm pp))%nat ->
  exists m, forall j, (j <= level)%nat -> eqm (mq (Qi pp j)) (f j) m.
Proof.
  intros WF. assert (KQ : forall j, (j < length (Qm pp))%nat -> okq (mq (Qi pp j))) by (intros j Hj; apply (okQ pp WF j); lia).
  assert (G : forall level, (level < length (Qm pp))%nat -> exists m P, (forall j, (j <= level)%nat -> eqm (mq (Qi pp j)) (f j) m /\ eqz (mq (Qi pp j)) P 0) /\
     forall q, prime q -> (forall j, (j <= level)%nat -> mq (Qi pp j) <> q) -> rel_prime P q).
  { induction level as [|l IH]; intros HL.
    - exists (f 0%nat), (mq (Qi pp 0)). split.
      + intros j Hj. replace j with 0%nat by lia. split; [apply eqm_refl|]. exists 1. ring.
      + intros q Pq Hq. destruct (KQ 0%nat HL) as [P0 _]. apply prime_rel_prime; [exact P0|]. intros D. apply prime_div_prime in D; trivial. apply (Hq 0%nat); [lia|exact D].
    - destruct (IH ltac:(lia)) as (m & P & A & B). set (q := mq (Qi pp (S l))). pose proof (KQ (S l) HL) as K. fold q in K. destruct K as [Pq Hq].
      destruct (rel_prime_bezout P q) as [u v E].
      { apply B; [exact Pq|]. intros j Hj. apply (Q_neq pp WF); lia. }
      exists (add m (smul (P * u) (sub (f (S l)) m))), (P * q). split.
      + intros j Hj. destruct (Nat.eq_dec j (S l)) as [->|Nj].
        * fold q. split; [|exists P; ring]. apply eqm_co. intros i Hi. rewrite co_add, co_smul, co_sub. exists (v * (co (f (S l)) i - co m i)).
          replace (co m i + P * u * (co (f (S l)) i - co m i)) with (co m i + (u * P) * (co (f (S l)) i - co m i)) by ring. replace (u * P) with (1 - v * q) by lia. ring.
        * destruct (A j ltac:(lia)) as [A1 [w Aw]]. replace P with (w * mq (Qi pp j)) by lia. split; [|exists (w * q); ring].
          eapply eqm_trans; [exact A1|]. apply eqm_co. intros i Hi. rewrite co_add, co_smul. exists (- (w * u * co (sub (f (S l)) m) i)). ring.
      + intros r Pr Hr. apply rel_prime_sym. apply rel_prime_mult; apply rel_prime_sym.
        * apply B; [exact Pr|]. intros j Hj. apply Hr. lia.
        * apply prime_rel_prime; [exact Pq|]. intros D. apply prime_div_prime in D; trivial. apply (Hr (S l)); [lia|exact D]. }
  intros level HL. destruct (G level HL) as (m & P & A & _). exists m. intros j Hj. apply A. assumption.
Qed.
Theorem decrypts_some : forall N pp (s : string -> R N) (c : ctT N) level, wfp N pp -> (level < length (Qm pp))%nat -> exists m, decrypts pp s c level m.
Proof. intros N pp s c level WF HL. apply (has_lift pp (phase pp s c) WF level HL). Qed.

(** ** C18: equal scales *)
Lemma mul_cst1 {N} (a : R N) : mul (cst 1) a = a.
Proof. rewrite <- smul_cst. apply R_ext. intros i Hi. rewrite co_smul. ring. Qed.
Lemma f_lt_irrefl (x : f64) : f_lt x x = false.
Proof.
  unfold f_lt. destruct x as [s|s| |s m e H]; try (destruct s); try reflexivity; cbn; rewrite Z.compare_refl, Pos.compare_cont_refl; reflexivity.
Qed.
Lemma f_max_same (x : f64) : f_max x x = x. Proof. unfold f_max. destruct (f_ge x x); reflexivity. Qed.

Theorem C18_add : forall N pp (o : IdSetModel.order) st (c0 c1 : ckct N) l0 l1, wfp N pp -> order_ok o -> pool_ok pp st ->
  (l0 < length (Qm pp))%nat -> (l1 < length (Qm pp))%nat -> wfct pp l0 false (cv c0) -> wfct pp l1 false (cv c1) -> csc c0 = csc c1 ->
  exists st' v, AddNew pp o st c0 c1 = Ok (st', CK v (csc c0)) /\ pool_ok pp st' /\ wfct pp (Nat.min l0 l1) false v /\
    (forall x, In x (keys v) <-> In x (keys (cv c0)) \/ In x (keys (cv c1))) /\
    forall s j, (j <= Nat.min l0 l1)%nat -> eqm (mq (Qi pp j)) (phase pp s v j) (add (phase pp s (cv c0) j) (phase pp s (cv c1) j)).
Proof.
  intros N pp o st c0 c1 l0 l1 WF O PO H0 H1 W0 W1 SE.
  destruct (AddNew_ok pp WF o st c0 c1 l0 l1 None None 1 1 O PO H0 H1 W0 W1) as (st' & v & A & B & C & D & E).
  - apply align_none; rewrite SE; apply f_lt_irrefl.
  - apply opnd_none_ok.
  - apply opnd_none_ok.
  - exists st', v. rewrite <- SE, f_max_same in A. repeat (split; [assumption|]). intros s j Hj. eapply eqm_trans; [apply E; assumption|]. apply eqm_eq. rewrite !mul_cst1. reflexivity.
Qed.
Print Assumptions C18_add.
Theorem C18_sub : forall N pp (o : IdSetModel.order) st (c0 c1 : ckct N) l0 l1, wfp N pp -> order_ok o -> pool_ok pp st ->
  (l0 < length (Qm pp))%nat -> (l1 < length (Qm pp))%nat -> wfct pp l0 false (cv c0) -> wfct pp l1 false (cv c1) -> csc c0 = csc c1 ->
  exists st' v, SubNew pp o st c0 c1 = Ok (st', CK v (csc c0)) /\ pool_ok pp st' /\ wfct pp (Nat.min l0 l1) false v /\
    (forall x, In x (keys v) <-> In x (keys (cv c0)) \/ In x (keys (cv c1))) /\
    forall s j, (j <= Nat.min l0 l1)%nat -> eqm (mq (Qi pp j)) (phase pp s v j) (sub (phase pp s (cv c0) j) (phase pp s (cv c1) j)).
Proof.
  intros N pp o st c0 c1 l0 l1 WF O PO H0 H1 W0 W1 SE.
  destruct (SubNew_ok pp WF o st c0 c1 l0 l1 None None 1 1 O PO H0 H1 W0 W1) as (st' & v & A & B & C & D & E).
  - apply align_none; rewrite SE; apply f_lt_irrefl.
  - apply opnd_none_ok.
  - apply opnd_none_ok.
  - exists st', v. rewrite <- SE, f_max_same in A. repeat (split; [assumption|]). intros s j Hj. eapply eqm_trans; [apply E; assumption|]. apply eqm_eq. rewrite !mul_cst1. reflexivity.
Qed.
Print Assumptions C18_sub.
(** observed through Decrypt: the coefficients of the decrypted sum (difference) are the sums (differences) of the decrypted coefficients *)
Theorem C18_decrypt : forall N pp (o o' : IdSetModel.order) st (c0 c1 : ckct N) l0 l1 sks s (pt : poly N), wfp N pp -> order_ok o -> order_ok o' -> pool_ok pp st ->
  (l0 < length (Qm pp))%nat -> (l1 < length (Qm pp))%nat -> wfct pp l0 false (cv c0) -> wfct pp l1 false (cv c1) -> csc c0 = csc c1 ->
  keys_ok pp (fun _ => True) s sks -> incl (parties (cv c0)) (keys sks) -> incl (parties (cv c1)) (keys sks) ->
  exists st1 a st2 b p0 p1 pa pb, AddNew pp o st c0 c1 = Ok (st1, a) /\ SubNew pp o st1 c0 c1 = Ok (st2, b) /\
    Decrypt pp o' (cv c0) sks pt = Ok p0 /\ Decrypt pp o' (cv c1) sks pt = Ok p1 /\ Decrypt pp o' (cv a) sks pt = Ok pa /\ Decrypt pp o' (cv b) sks pt = Ok pb /\
    forall j i, (j <= Nat.min l0 l1)%nat -> (j <= plevel pt)%nat -> (i < N)%nat ->
      co (row (prows pa) j) i = (co (row (prows p0) j) i + co (row (prows p1) j) i) mod mq (Qi pp j) /\
      co (row (prows pb) j) i = (co (row (prows p0) j) i - co (row (prows p1) j) i) mod mq (Qi pp j).
Proof.
  intros N pp o o' st c0 c1 l0 l1 sks s pt WF O O' PO H0 H1 W0 W1 SE KO I0 I1.
  destruct (C18_add N pp o st c0 c1 l0 l1 WF O PO H0 H1 W0 W1 SE) as (st1 & a & A1 & A2 & A3 & A4 & A5).
  destruct (C18_sub N pp o st1 c0 c1 l0 l1 WF O A2 H0 H1 W0 W1 SE) as (st2 & b & B1 & B2 & B3 & B4 & B5).
  assert (KK : forall c : ctT N, keys_ok pp (fun id => In id (parties c)) s sks).
  { intros c. destruct KO as [K1 K2]. split; [exact K1|]. intros id k Hk. destruct (K2 id k Hk) as [X Y]. split; [exact X|]. intros _. apply Y. trivial. }
  assert (IV : forall v : ctT N, (forall x, In x (keys v) <-> In x (keys (cv c0)) \/ In x (keys (cv c1))) -> incl (parties v) (keys sks)).
  { intros v K x Hx. apply in_parties in Hx as [X Y]. apply K in Y as [Y|Y]; [apply I0|apply I1]; apply in_parties; tauto. }
  destruct (C15_value N pp l0 false o' (cv c0) s sks pt WF H0 O' W0 (KK _) I0) as (p0 & P1 & P2 & P3).
  destruct (C15_value N pp l1 false o' (cv c1) s sks pt WF H1 O' W1 (KK _) I1) as (p1 & Q1 & Q2 & Q3).
  destruct (C15_value N pp (Nat.min l0 l1) false o' a s sks pt WF ltac:(lia) O' A3 (KK _) (IV _ A4)) as (pa & R1 & R2 & R3).
  destruct (C15_value N pp (Nat.min l0 l1) false o' b s sks pt WF ltac:(lia) O' B3 (KK _) (IV _ B4)) as (pb & T1 & T2 & T3).
  exists st1, (CK a (csc c0)), st2, (CK b (csc c0)), p0, p1, pa, pb. cbn [cv]. repeat (split; [assumption|]).
  intros j i Hj Hp Hi. destruct (P3 j ltac:(lia)) as [_ P4], (Q3 j ltac:(lia)) as [_ Q4], (R3 j ltac:(lia)) as [R4 R5], (T3 j ltac:(lia)) as [T4 T5].
  unfold pvalue in P4, Q4, R5, T5. cbn [pntt prows] in *. specialize (A5 s j Hj). specialize (B5 s j Hj).
  rewrite <- P4, <- Q4, <- R5 in A5. rewrite <- P4, <- Q4, <- T5 in B5. rewrite eqm_co in A5, B5. specialize (A5 i Hi). specialize (B5 i Hi). rewrite co_add in A5. rewrite co_sub in B5.
  assert (Q0 : 0 < mq (Qi pp j)) by (destruct (okQ pp WF j ltac:(lia)) as [_ [_ X]]; lia). specialize (R4 i Hi). specialize (T4 i Hi).
  split.
  - rewrite <- (Z.mod_small _ _ R4). apply (eqz_iff (mq (Qi pp j))); [lia|exact A5].
  - rewrite <- (Z.mod_small _ _ T4). apply (eqz_iff (mq (Qi pp j))); [lia|exact B5].
Qed.
Print Assumptions C18_decrypt.

(** ** C19: different scales *)
(** K(a,b): the factor the operand of scale a receives when the other one has scale b *)
Definition align_factor (a b : f64) : Z := Z.max 1 (Zfloor (rnd (B2R b / B2R a))).
Theorem C19_add : forall N pp (o : IdSetModel.order) st (c0 c1 : ckct N) l0 l1, wfp N pp -> order_ok o -> pool_ok pp st ->
  (l0 < length (Qm pp))%nat -> (l1 < length (Qm pp))%nat -> wfct pp l0 false (cv c0) -> wfct pp l1 false (cv c1) ->
  is_finite (csc c0) = true -> is_finite (csc c1) = true -> (0 < B2R (csc c0))%R -> (0 < B2R (csc c1))%R -> okratio (csc c0) (csc c1) -> okratio (csc c1) (csc c0) ->
  let K0 := align_factor (csc c0) (csc c1) in let K1 := align_factor (csc c1) (csc c0) in
  exists st' v, AddNew pp o st c0 c1 = Ok (st', CK v (f_max (csc c0) (csc c1))) /\ pool_ok pp st' /\ wfct pp (Nat.min l0 l1) false v /\
    (forall x, In x (keys v) <-> In x (keys (cv c0)) \/ In x (keys (cv c1))) /\
    forall s j, (j <= Nat.min l0 l1)%nat -> eqm (mq (Qi pp j)) (phase pp s v j) (add (smul K0 (phase pp s (cv c0) j)) (smul K1 (phase pp s (cv c1) j))).
Proof.
  intros N pp o st c0 c1 l0 l1 WF O PO H0 H1 W0 W1 F0 F1 P0 P1 R0 R1 K0 K1.
  destruct (align_ok pp WF (csc c0) (csc c1) l0 l1 (cv c0) (cv c1) H0 H1 F0 F1 P0 P1 R0 R1) as (k0 & k1 & AL & X0 & X1).
  destruct (AddNew_ok pp WF o st c0 c1 l0 l1 k0 k1 K0 K1 O PO H0 H1 W0 W1 AL X0 X1) as (st' & v & A & B & C & D & E).
  exists st', v. repeat (split; [assumption|]). intros s j Hj. rewrite !smul_cst. apply E. assumption.
Qed.
Print Assumptions C19_add.
Theorem C19_sub : forall N pp (o : IdSetModel.order) st (c0 c1 : ckct N) l0 l1, wfp N pp -> order_ok o -> pool_ok pp st ->
  (l0 < length (Qm pp))%nat -> (l1 < length (Qm pp))%nat -> wfct pp l0 false (cv c0) -> wfct pp l1 false (cv c1) ->
  is_finite (csc c0) = true -> is_finite (csc c1) = true -> (0 < B2R (csc c0))%R -> (0 < B2R (csc c1))%R -> okratio (csc c0) (csc c1) -> okratio (csc c1) (csc c0) ->
  let K0 := align_factor (csc c0) (csc c1) in let K1 := align_factor (csc c1) (csc c0) in
  exists st' v, SubNew pp o st c0 c1 = Ok (st', CK v (f_max (csc c0) (csc c1))) /\ pool_ok pp st' /\ wfct pp (Nat.min l0 l1) false v /\
    (forall x, In x (keys v) <-> In x (keys (cv c0)) \/ In x (keys (cv c1))) /\
    forall s j, (j <= Nat.min l0 l1)%nat -> eqm (mq (Qi pp j)) (phase pp s v j) (sub (smul K0 (phase pp s (cv c0) j)) (smul K1 (phase pp s (cv c1) j))).
Proof.
  intros N pp o st c0 c1 l0 l1 WF O PO H0 H1 W0 W1 F0 F1 P0 P1 R0 R1 K0 K1.
  destruct (align_ok pp WF (csc c0) (csc c1) l0 l1 (cv c0) (cv c1) H0 H1 F0 F1 P0 P1 R0 R1) as (k0 & k1 & AL & X0 & X1).
  destruct (SubNew_ok pp WF o st c0 c1 l0 l1 k0 k1 K0 K1 O PO H0 H1 W0 W1 AL X0 X1) as (st' & v & A & B & C & D & E).
  exists st', v. repeat (split; [assumption|]). intros s j Hj. rewrite !smul_cst. apply E. assumption.
Qed.
Print Assumptions C19_sub.
(** the operand of the larger scale s1 is left alone and the result has that scale; the factor of the other operand is within 1 of the
    ratio, and the alignment is exact exactly when the ratio is an integer *)
Lemma factor_bounds (s0 s1 : f64) : (0 < B2R s0)%R -> (B2R s0 <= B2R s1)%R -> (B2R s1 / B2R s0 <= IZR (2 ^ 52 - 1))%R ->
  (Rabs (IZR (align_factor s0 s1) - B2R s1 / B2R s0) < 1)%R.
Proof.
  intros P L H. unfold align_factor. set (r := (B2R s1 / B2R s0)%R) in *. assert (R1 : (1 <= r)%R).
  { apply Rmult_le_reg_r with (B2R s0); [assumption|]. unfold r, Rdiv. rewrite Rmult_assoc, Rinv_l by lra. lra. }
  assert (FI : forall z, Z.abs z < 2 ^ 53 -> rnd (IZR z) = IZR z) by (intros z Hz; apply rnd_fmt; apply fmt_int; assumption).
  assert (ZU : Zfloor r <= 2 ^ 52 - 1) by (apply le_IZR; eapply Rle_trans; [apply Zfloor_lb|exact H]).
  assert (ZL : 1 <= Zfloor r) by (apply Zfloor_lub; exact R1).
  assert (LO : (IZR (Zfloor r) <= rnd r)%R) by (rewrite <- (FI (Zfloor r)) by lia; apply rnd_le; apply Zfloor_lb).
  assert (HI : (rnd r <= IZR (Zfloor r + 1))%R) by (rewrite <- (FI (Zfloor r + 1)) by lia; apply rnd_le; rewrite plus_IZR; apply Rlt_le; apply Zfloor_ub).
  assert (K1 : Zfloor r <= Zfloor (rnd r)) by (apply Zfloor_lub; exact LO).
  assert (K2 : Zfloor (rnd r) <= Zfloor r + 1) by (apply le_IZR; eapply Rle_trans; [apply Zfloor_lb|exact HI]).
  rewrite Z.max_r by lia. pose proof (Zfloor_lb r). pose proof (Zfloor_ub r).
  destruct (Z.eq_dec (Zfloor (rnd r)) (Zfloor r)) as [E|E].
  - rewrite E. apply Rabs_lt. lra.
  - assert (r <> IZR (Zfloor r)).
    { intros X. apply E. assert (Y : rnd r = IZR (Zfloor r)) by (rewrite <- (FI (Zfloor r)) by lia; f_equal; exact X). rewrite Y. apply Zfloor_IZR. }
    replace (Zfloor (rnd r)) with (Zfloor r + 1) by lia. rewrite plus_IZR. apply Rabs_lt. lra.
Qed.
Theorem C19_factor : forall (s0 s1 : f64), is_finite s0 = true -> is_finite s1 = true -> (0 < B2R s0)%R -> (B2R s0 <= B2R s1)%R -> (B2R s1 / B2R s0 <= IZR (2 ^ 52 - 1))%R ->
  align_factor s1 s0 = 1 /\ B2R (f_max s0 s1) = B2R s1 /\ B2R (f_max s1 s0) = B2R s1 /\
  (Rabs (IZR (align_factor s0 s1) - B2R s1 / B2R s0) < 1)%R /\
  ((IZR (align_factor s0 s1) * B2R s0 = B2R s1)%R <-> exists k : Z, (B2R s1 = IZR k * B2R s0)%R).
Proof.
  intros s0 s1 F0 F1 P L H. assert (RI : (B2R s0 / B2R s1 <= 1)%R).
  { apply Rmult_le_reg_r with (B2R s1); [lra|]. unfold Rdiv. rewrite Rmult_assoc, Rinv_l by lra. lra. }
  split; [|split; [|split; [|split]]].
  - unfold align_factor. rewrite Z.max_l; [reflexivity|]. apply le_IZR. eapply Rle_trans; [apply Zfloor_lb|]. rewrite <- (rnd_fmt (IZR 1)) by (apply fmt_int; lia). apply rnd_le. exact RI.
  - unfold f_max, f_ge. destruct (f_le s1 s0) eqn:X; [|reflexivity]. apply (f_le_ok s1 s0 F1 F0) in X. lra.
  - unfold f_max, f_ge. destruct (f_le s0 s1) eqn:X; [reflexivity|]. apply (f_le_ok s0 s1 F0 F1) in L. congruence.
  - apply factor_bounds; assumption.
  - split; [intros X; exists (align_factor s0 s1); symmetry; exact X|]. intros [k Hk]. pose proof (factor_bounds s0 s1 P L H) as B. rewrite Hk in B.
    replace (IZR k * B2R s0 / B2R s0)%R with (IZR k) in B by (field; lra). rewrite <- minus_IZR, <- abs_IZR in B. apply lt_IZR in B.
    replace (align_factor s0 s1) with k by lia. symmetry. exact Hk.
Qed.
Print Assumptions C19_factor.

(** scales more than a factor 2^52 apart are not aligned correctly: an odd ratio in [2^52, 2^53) is multiplied in plus one, and from 2^63 on
    the factor is multiplied by the last modulus as well *)
Lemma opnd_real {N} pp level k (v sc : f64) (c : ctT N) : wfp N pp -> (level < length (Qm pp))%nat -> getConstAndScale pp level k = (v, f_zero, sc) ->
  is_finite v = true -> is_finite sc = true -> (0 <= B2R sc)%R -> (Rabs (B2R sc * B2R v) <= big / 4)%R ->
  exists cs, mbcConsts (N := N) pp level k = Ok cs /\ opnd_ok pp (Some cs) (supInt v sc) c level.
Proof.
  intros WF HL E Fv Fs S0 HB. destruct (mbc_real pp WF level k v sc HL E Fv Fs S0 HB) as (cs & C1 & C2). exists cs. split; [exact C1|].
  intros x j Hj I. cbn [opnd]. apply (hrow_ok pp WF level); trivial. apply C2. assumption.
Qed.
Lemma big_ok z (r : Rdefinitions.R) : (Rabs r <= IZR z)%R -> z <= 2 ^ 900 -> (Rabs r <= big / 4)%R.
Proof.
  intros H L. eapply Rle_trans; [exact H|]. unfold big. change (2 ^ 1000) with (2 ^ 998 * 4). rewrite mult_IZR. assert (IZR z <= IZR (2 ^ 998))%R by (apply IZR_le; assert (2 ^ 900 <= 2 ^ 998) by (apply Z.pow_le_mono_r; lia); lia). lra.
Qed.
Lemma ratio_id (r : f64) K : is_finite_strict r = true -> is_finite_strict (f_floor (f_div r f_one)) = true -> B2R r = IZR K -> Z.abs K < 2 ^ 900 -> f_floor (f_div r f_one) = r.
Proof.
  intros F1 F2 E HK. destruct f_one_ok as [E1 F3]. apply B2R_inj; trivial. destruct (f_floor_ok (f_div r f_one)) as [X _]. rewrite X.
  assert (BB : (Rabs (B2R r / B2R f_one) <= big)%R).
  { rewrite E1, E. unfold Rdiv. rewrite Rinv_1, Rmult_1_r, <- abs_IZR. unfold big. apply IZR_le. assert (2 ^ 900 <= 2 ^ 1000) by (apply Z.pow_le_mono_r; lia). lia. }
  destruct (f_div_ok' r f_one) as [Y _]; [destruct r; try discriminate; reflexivity|rewrite E1; lra|exact BB|]. rewrite Y, E1.
  unfold Rdiv. rewrite Rinv_1, Rmult_1_r, rnd_fmt by apply fmt_B2R. rewrite E. rewrite Zfloor_IZR. reflexivity.
Qed.
Theorem C19_odd_ratio_refuted : forall N pp (o : IdSetModel.order) st (c0 c1 : ckct N) l0 l1, wfp N pp -> order_ok o -> pool_ok pp st ->
  (l0 < length (Qm pp))%nat -> (l1 < length (Qm pp))%nat -> wfct pp l0 false (cv c0) -> wfct pp l1 false (cv c1) -> csc c0 = f_one -> csc c1 = f_of_int (2 ^ 52 + 1) ->
  exists st' v, AddNew pp o st c0 c1 = Ok (st', CK v (f_of_int (2 ^ 52 + 1))) /\
    forall s j, (j <= Nat.min l0 l1)%nat -> eqm (mq (Qi pp j)) (phase pp s v j) (add (smul (2 ^ 52 + 2) (phase pp s (cv c0) j)) (phase pp s (cv c1) j)).
Proof.
  intros N pp o st c0 c1 l0 l1 WF O PO H0 H1 W0 W1 S0 S1. set (r := f_of_int (2 ^ 52 + 1)).
  assert (RE : B2R r = IZR (2 ^ 52 + 1) /\ is_finite r = true).
  { destruct (f_of_int_ok (2 ^ 52 + 1)) as [X Y]; [lia|]. split; [|exact Y]. unfold r. rewrite X. apply rnd_fmt. apply fmt_int. lia. }
  destruct RE as [RE RF]. destruct f_one_ok as [E1 F1].
  destruct (opnd_real pp l0 (CFloat r) r f_one (cv c0) WF H0 (const_int pp l0 r (2 ^ 52 + 1) RF RE ltac:(lia)) RF F1) as (cs & C1 & C2).
  - rewrite E1. lra.
  - apply (big_ok (2 ^ 53)); [rewrite E1, RE, Rmult_1_l, <- abs_IZR; apply IZR_le; lia|apply Z.pow_le_mono_r; lia].
  - replace (supInt r f_one) with (2 ^ 52 + 2) in C2 by (vm_compute; reflexivity).
    destruct (AddNew_ok pp WF o st c0 c1 l0 l1 (Some cs) None (2 ^ 52 + 2) 1 O PO H0 H1 W0 W1) as (st' & v & A & B & C & D & E).
    + unfold alignOf. rewrite S0, S1. change (f_of_int (2 ^ 52 + 1)) with r.
      rewrite (ratio_id r _ eq_refl eq_refl RE) by lia. replace (f_gt r f_one) with true by (vm_compute; reflexivity). cbn [andb]. rewrite C1. reflexivity.
    + exact C2.
    + apply opnd_none_ok.
    + exists st', v. rewrite S0, S1 in A. split; [exact A|]. intros s j Hj. eapply eqm_trans; [apply E; assumption|]. apply eqm_eq. rewrite mul_cst1, smul_cst. reflexivity.
Qed.
Print Assumptions C19_odd_ratio_refuted.
Theorem C19_huge_ratio_refuted : forall N pp (o : IdSetModel.order) st (c0 c1 : ckct N) l0 l1, wfp N pp -> order_ok o -> pool_ok pp st ->
  (l0 < length (Qm pp))%nat -> (l1 < length (Qm pp))%nat -> wfct pp l0 false (cv c0) -> wfct pp l1 false (cv c1) -> csc c0 = f_one -> csc c1 = f_of_int (2 ^ 63) ->
  mq (Qi pp l0) < 2 ^ 53 ->
  exists st' v, AddNew pp o st c0 c1 = Ok (st', CK v (f_of_int (2 ^ 63))) /\
    forall s j, (j <= Nat.min l0 l1)%nat -> eqm (mq (Qi pp j)) (phase pp s v j) (add (smul (2 ^ 63 * mq (Qi pp l0)) (phase pp s (cv c0) j)) (phase pp s (cv c1) j)).
Proof.
  intros N pp o st c0 c1 l0 l1 WF O PO H0 H1 W0 W1 S0 S1 QS. set (r := f_of_int (2 ^ 63)). set (q := mq (Qi pp l0)) in *.
  assert (Q0 : 2 <= q) by (destruct (okQ pp WF l0 H0) as [_ [X Y]]; unfold q; lia).
  assert (RE : B2R r = IZR (2 ^ 63)) by (unfold r; destruct (f_of_int_ok (2 ^ 63)) as [X Y]; [lia|]; rewrite X; apply rnd_fmt; apply fmt_pow; lia).
  assert (RF : is_finite r = true) by reflexivity. destruct f_one_ok as [E1 F1].
  destruct (f_of_int_ok q) as [QE QF]; [lia|]. rewrite rnd_fmt in QE by (apply fmt_int; lia).
  assert (GC : getConstAndScale pp l0 (CFloat r) = (r, f_zero, f_of_int q)).
  { unfold getConstAndScale. replace (hasFrac r) with true by (vm_compute; reflexivity). reflexivity. }
  destruct (opnd_real pp l0 (CFloat r) r (f_of_int q) (cv c0) WF H0 GC RF QF) as (cs & C1 & C2).
  - rewrite QE. apply IZR_le. lia.
  - apply (big_ok (2 ^ 116)); [rewrite QE, RE, <- mult_IZR, <- abs_IZR; apply IZR_le; change (2 ^ 116) with (2 ^ 53 * 2 ^ 63); nia|apply Z.pow_le_mono_r; lia].
  - assert (SU : supInt r (f_of_int q) = 2 ^ 63 * q).
    { apply supInt_ok; trivial.
      - rewrite QE. apply IZR_le. lia.
      - apply (big_ok (2 ^ 116)); [rewrite QE, RE, <- mult_IZR, <- abs_IZR; apply IZR_le; change (2 ^ 116) with (2 ^ 53 * 2 ^ 63); nia|apply Z.pow_le_mono_r; lia].
      - rewrite QE, RE, <- mult_IZR. replace (q * 2 ^ 63) with (2 ^ 63 * q) by ring. apply rnd_fmt.
        replace (IZR (2 ^ 63 * q)) with (F2R (Float radix2 q 63)); [apply fmt_F2R; lia|]. unfold F2R. cbn [Fnum Fexp]. rewrite mult_IZR. change (bpow radix2 63) with (IZR (2 ^ 63)). ring.
      - right. nia. }
    rewrite SU in C2.
    destruct (AddNew_ok pp WF o st c0 c1 l0 l1 (Some cs) None (2 ^ 63 * q) 1 O PO H0 H1 W0 W1) as (st' & v & A & B & C & D & E).
    + unfold alignOf. rewrite S0, S1. change (f_of_int (2 ^ 63)) with r.
      rewrite (ratio_id r _ eq_refl eq_refl RE) by lia. replace (f_gt r f_one) with true by (vm_compute; reflexivity). cbn [andb]. rewrite C1. reflexivity.
    + exact C2.
    + apply opnd_none_ok.
    + exists st', v. rewrite S0, S1 in A. split; [exact A|]. intros s j Hj. eapply eqm_trans; [apply E; assumption|]. apply eqm_eq. rewrite mul_cst1, smul_cst. reflexivity.
Qed.
Print Assumptions C19_huge_ratio_refuted.
