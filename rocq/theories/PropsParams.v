(** C53: parameter constructors accept exactly the literals they should, and what they return meets the hypotheses of the other theorems -- except for the checks they lack. *)
From Flocq Require Import Core BinarySingleNaN.
From Coq Require Import Znumtheory Zpow_facts Reals Lra.
From Verif Require Import Base NumTheory Negacyclic Ntt FloatModel FloatProofs Word Pock BasisExt BasisExtProofs DecompProofs Rows RlweModel KeyGenModel BfvMulModel SchemeSpec BfvConv Roots CkksFloat CkksFloatProofs PropsBasis Shipped PropsShipped ParamsModel.
Open Scope Z_scope.

(** *** specification *)
(** what the library computes for a prime q = 1 mod 2N: a 2N-th root of unity *)
Definition root_contract (root : nat -> Z -> Z) : Prop := forall logN q, prime q -> 2 < q -> q mod (2 * 2 ^ Z.of_nat logN) = 1 -> eqz q (root (2 ^ logN)%nat q ^ Z.of_nat (2 ^ logN)) (-1).
(** a legal modulus for ring degree 2^logN *)
Definition legal (logN : nat) (q : Z) : Prop := prime q /\ q mod (2 * 2 ^ Z.of_nat logN) = 1.
(** the literals a BFV parameter constructor has to accept *)
Definition acceptable (pl : bfvLiteral) : Prop :=
  length (bl_Q pl) = length (bl_QMul pl) /\ (4 <= bl_logN pl)%nat /\ (0 < length (bl_Q pl))%nat /\ (2 <= length (bl_P pl))%nat /\
  NoDup (bl_Q pl ++ bl_QMul pl) /\ NoDup (bl_P pl) /\ forall q, In q (bl_T pl :: bl_Q pl ++ bl_QMul pl ++ bl_P pl) -> legal (bl_logN pl) q.

(** *** roots exist *)
Theorem C53_roots_exist : exists root, root_contract root.
Proof.
  exists (fun N q => match find (fun r => (powm q r (Z.of_nat N)) =? q - 1) (map Z.of_nat (seq 0 (Z.to_nat q))) with Some r => r | None => 0 end). intros logN q PQ Q2 HM.
  set (N := (2 ^ logN)%nat). assert (EN : Z.of_nat N = 2 ^ Z.of_nat logN) by (unfold N; rewrite Nat2Z.inj_pow; reflexivity). assert (NP : 0 < 2 ^ Z.of_nat logN) by (apply Z.pow_pos_nonneg; lia).
  destruct (primitive_root q (2 ^ Z.of_nat logN) PQ Q2 NP HM) as (r & Hr & Er).
  destruct (find _ _) as [x|] eqn:F.
  - apply find_some in F. destruct F as [_ F]. apply Z.eqb_eq in F. rewrite powm_ok in F by lia. apply eqz_iff; [lia|]. rewrite F. replace (-1) with (q - 1 + -1 * q) by ring. rewrite Z_mod_plus_full. symmetry. apply Z.mod_small. lia.
  - exfalso. pose proof (find_none _ _ F r) as X. cbv beta in X. rewrite powm_ok in X by lia. rewrite EN in X. apply eqz_iff in Er; [|lia]. rewrite Er in X. replace (-1) with (q - 1 + -1 * q) in X by ring. rewrite Z_mod_plus_full, Z.mod_small in X by lia.
    assert (I : In r (map Z.of_nat (seq 0 (Z.to_nat q)))) by (apply in_map_iff; exists (Z.to_nat r); split; [lia|apply in_seq; lia]). apply X in I. apply Z.eqb_neq in I. lia.
Qed.
Print Assumptions C53_roots_exist.

(** *** NewParameters *)
Lemma ceil_inf a : 0 < a < 2 ^ 52 -> is_finite (f_ceil (f_div (f_of_int a) (f_of_int 0))) = false.
Proof.
  intros Ha. destruct (f_of_int_ok a) as [E F]; [lia|]. change (f_of_int 0) with (B754_zero false : f64).
  assert (NZ : B2R (f_of_int a) <> 0%R). { rewrite E. assert (X : rnd (IZR a) = IZR a) by (apply rnd_fmt; apply fmt_int; lia). rewrite X. apply IZR_neq. lia. }
  destruct (f_of_int a) as [s|s| |s m e B]; cbn in E, F, NZ; try discriminate; [lra|]. reflexivity.
Qed.
Lemma ceil_fin a b : 0 <= a < 2 ^ 52 -> 0 < b < 2 ^ 52 -> is_finite (f_ceil (f_div (f_of_int a) (f_of_int b))) = true.
Proof.
  intros Ha Hb.
  assert (EX : forall z, 0 <= z < 2 ^ 52 -> rnd (IZR z) = IZR z).
  { intros z Hz. apply rnd_fmt. apply fmt_int. lia. }
  destruct (f_of_int_ok a) as [Ea Fa]; [lia|]. destruct (f_of_int_ok b) as [Eb Fb]; [lia|]. rewrite EX in Ea, Eb by lia.
  assert (A0 : (0 <= IZR a)%R) by (apply IZR_le; lia). assert (A1 : (IZR a <= 4503599627370496)%R) by (apply IZR_le; lia). assert (B1 : (1 <= IZR b)%R) by (apply IZR_le; lia).
  assert (D0 : (0 <= IZR a / IZR b <= IZR a)%R).
  { split; [apply Rmult_le_pos; [assumption|left; apply Rinv_0_lt_compat; lra]|]. apply Rmult_le_reg_r with (IZR b); [lra|]. unfold Rdiv. rewrite Rmult_assoc, Rinv_l by lra. nra. }
  destruct (f_div_ok (f_of_int a) (f_of_int b)) as [Ed Fd]; [assumption|rewrite Eb; lra| |].
  { rewrite Ea, Eb, Rabs_pos_eq by lra. change (2 ^ 70)%Z with 1180591620717411303424%Z. lra. }
  pose proof (Bnearbyint_correct 53 1024 eq_refl mode_UP (f_div (f_of_int a) (f_of_int b))) as (_ & C & _). unfold f_ceil. rewrite C. exact Fd.
Qed.
(** NewParameters panics exactly if gamma is 0 or there are fewer special primes than gamma; otherwise it returns the CRS of C04 *)
Theorem C53_rlwe : forall N pp logN (u : Z -> nat -> polyQP N), (0 < length (Qm pp))%nat -> Z.of_nat (length (Qm pp)) < 2 ^ 52 -> Z.of_nat (length (Pm pp)) < 2 ^ 52 ->
  ((gam pp = 0 \/ length (Pm pp) < gam pp)%nat -> rlweNewParameters pp logN u = Panic) /\ ((0 < gam pp <= length (Pm pp))%nat -> rlweNewParameters pp logN u = Ok (NewCRS pp logN u)).
Proof.
  intros N pp logN u HQ BQ BP. unfold rlweNewParameters. destruct (Nat.eqb_spec (gam pp) 0) as [E|HG]; [split; intros H; [reflexivity|lia]|]. split; intros H.
  all: try (destruct H as [H|H]; [lia|]).
  - rewrite Nat.div_small by exact H. unfold makeLen. rewrite ceil_inf by lia. reflexivity.
  - assert (A : (0 < length (Pm pp) / gam pp)%nat) by (apply Nat.div_str_pos; lia). assert (A' : (length (Pm pp) / gam pp <= length (Pm pp))%nat) by (apply Nat.div_le_upper_bound; nia).
    unfold makeLen. rewrite ceil_fin by lia. fold (f_ceil_div (Z.of_nat (length (Qm pp))) (Z.of_nat (length (Pm pp) / gam pp))).
    assert (EB : Z.to_nat (f_ceil_div (Z.of_nat (length (Qm pp))) (Z.of_nat (length (Pm pp) / gam pp))) = beta pp (maxLevel pp)). { unfold beta, beta_of, maxLevel, alpha. do 3 f_equal. lia. }
    destruct (Z.ltb_spec (f_ceil_div (Z.of_nat (length (Qm pp))) (Z.of_nat (length (Pm pp) / gam pp))) 0) as [L|_].
    + exfalso. rewrite f_ceil_div_ok in L by lia. pose proof (Z.div_pos (Z.of_nat (length (Qm pp)) + Z.of_nat (length (Pm pp) / gam pp) - 1) (Z.of_nat (length (Pm pp) / gam pp)) ltac:(lia) ltac:(lia)). lia.
    + cbn [rbind]. rewrite EB. reflexivity.
Qed.
Print Assumptions C53_rlwe.

(** *** rings *)
Lemma distinct_ok l : distinct l = true <-> NoDup l.
Proof.
  induction l as [|x l IH]; [split; [constructor|reflexivity]|]. cbn [distinct]. rewrite Bool.andb_true_iff, Bool.negb_true_iff, IH. split.
  - intros [E H]. constructor; [|exact H]. intros I. assert (X : existsb (Z.eqb x) l = true) by (apply existsb_exists; exists x; split; [exact I|apply Z.eqb_refl]). congruence.
  - intros H. inversion H as [|? ? NI ND]; subst. split; [|exact ND]. destruct (existsb (Z.eqb x) l) eqn:E; [|reflexivity]. apply existsb_exists in E. destruct E as (y & I & E). apply Z.eqb_eq in E. subst y. contradiction.
Qed.
Lemma ntt_prime_ok logN q : ntt_prime logN q = true <-> legal logN q.
Proof. unfold ntt_prime, legal. rewrite Bool.andb_true_iff, Z.eqb_eq. destruct (prime_dec q) as [P|P]; split; intros [A B]; split; trivial; discriminate || contradiction. Qed.
Definition ringOf (root : nat -> Z -> Z) (logN : nat) (ms : list Z) : list modulus := map (fun q => Mod q (root (2 ^ logN)%nat q)) ms.
Lemma newRing_ok root logN ms : newRing root logN ms = Ok (ringOf root logN ms) /\ (4 <= logN)%nat /\ ms <> nil /\ NoDup ms /\ (forall q, In q ms -> legal logN q) \/
  newRing root logN ms = Panic /\ ~ ((4 <= logN)%nat /\ ms <> nil /\ NoDup ms /\ (forall q, In q ms -> legal logN q)).
Proof.
  unfold newRing. destruct (_ && _)%bool eqn:E.
  - left. split; [reflexivity|]. apply andb_prop in E as [E E4]. apply andb_prop in E as [E E3]. apply andb_prop in E as [E1 E2]. apply Nat.leb_le in E1. apply distinct_ok in E3. rewrite forallb_forall in E4.
    split; [exact E1|]. split; [destruct ms; [discriminate E2|discriminate]|]. split; [exact E3|]. intros q Hq. apply ntt_prime_ok. apply E4. exact Hq.
  - right. split; [reflexivity|]. intros (H1 & H2 & H3 & H4). apply Bool.andb_false_iff in E. destruct E as [E|E].
    + apply Bool.andb_false_iff in E. destruct E as [E|E]; [|apply distinct_ok in H3; congruence]. apply Bool.andb_false_iff in E. destruct E as [E|E]; [apply Nat.leb_gt in E; lia|]. destruct ms; [congruence|discriminate E].
    + assert (X : forallb (ntt_prime logN) ms = true) by (apply forallb_forall; intros q Hq; apply ntt_prime_ok; apply H4; exact Hq). congruence.
Qed.

(** *** the BFV constructor: accepts exactly the acceptable literals *)
Theorem C53_bfv_accepts : forall root pl u uR, Z.of_nat (length (bl_Q pl)) < 2 ^ 51 -> Z.of_nat (length (bl_P pl)) < 2 ^ 51 ->
  (acceptable pl -> let b := BP (ringOf root (bl_logN pl) (bl_Q pl)) (ringOf root (bl_logN pl) (bl_QMul pl)) (ringOf root (bl_logN pl) (bl_P pl)) (bl_T pl) in
     bfvNewParametersFromLiteral root pl u uR = Ok (BFP _ b (NewCRS (ppQ b) (bl_logN pl) u) (NewCRS (ppR b) (bl_logN pl) uR))) /\
  (~ acceptable pl -> bfvNewParametersFromLiteral root pl u uR = Panic).
Proof.
  intros root [logN Q M P T] u uR BQ BP. cbn [bl_logN bl_Q bl_QMul bl_P bl_T] in *. unfold acceptable, bfvNewParametersFromLiteral. cbn [bl_logN bl_Q bl_QMul bl_P bl_T].
  assert (RL : forall ms, length (ringOf root logN ms) = length ms) by (intros; apply map_length). unfold newRlwe. split.
  - intros (E1 & E2 & E3 & E4 & E5 & E6 & E7). rewrite (proj2 (Nat.eqb_eq _ _) E1). cbn [negb].
    assert (ND : NoDup Q /\ NoDup M) by (apply NoDup_app_remove_r in E5 as X; apply NoDup_app_remove_l in E5 as Y; split; assumption). destruct ND as [ND1 ND2].
    assert (LG : forall ms, ms <> nil -> NoDup ms -> (forall q, In q ms -> In q (T :: Q ++ M ++ P)) -> newRing root logN ms = Ok (ringOf root logN ms)).
    { intros ms H1 H2 H3. destruct (newRing_ok root logN ms) as [[X _]|[_ X]]; [exact X|]. exfalso. apply X. split; [exact E2|]. split; [exact H1|]. split; [exact H2|]. intros q Hq. apply E7. apply H3. exact Hq. }
    rewrite (LG [T]); [|discriminate|repeat constructor; intros []|intros q [<-|[]]; left; reflexivity]. cbn [rbind].
    rewrite (LG M); [|intros ->; cbn in E1; lia|exact ND2|intros q Hq; right; apply in_or_app; right; apply in_or_app; left; exact Hq]. cbn [rbind].
    rewrite (LG Q); [|intros ->; cbn in E3; lia|exact ND1|intros q Hq; right; apply in_or_app; left; exact Hq]. cbn [rbind].
    assert (HP : (match P with nil => Ok nil | _ => newRing root logN P end) = Ok (ringOf root logN P)). { destruct P as [|p P]; [cbn in E4; lia|]. apply LG; [discriminate|exact E6|]. intros q Hq. right. apply in_or_app. right. apply in_or_app. right. exact Hq. }
    rewrite HP. cbn [rbind]. rewrite (LG (Q ++ M)); [|intros X; apply app_eq_nil in X; destruct X as [-> _]; cbn in E3; lia|exact E5|]. 2:{ intros q Hq. right. apply in_app_or in Hq. apply in_or_app. destruct Hq as [Hq|Hq]; [left; exact Hq|right; apply in_or_app; left; exact Hq]. }
    cbn [rbind]. destruct (C53_rlwe (2 ^ logN) (RP (ringOf root logN Q) (ringOf root logN P) 2) logN u) as [_ C1]; cbn [gam Qm Pm]; rewrite ?RL; try lia. rewrite C1 by (cbn [gam Pm]; rewrite RL; split; [lia|exact E4]). cbn [rbind].
    assert (LRM : length (ringOf root logN (Q ++ M)) = (length Q + length M)%nat) by (rewrite RL; apply app_length).
    destruct (C53_rlwe (2 ^ logN) (RP (ringOf root logN (Q ++ M)) (ringOf root logN P) 2) logN uR) as [_ C2]; cbn [gam Qm Pm]; rewrite ?LRM, ?RL; try lia. rewrite C2 by (cbn [gam Pm]; rewrite RL; split; [lia|exact E4]). cbn [rbind].
    unfold ppQ, ppR. cbn [bQ bM bP]. unfold ringOf. cbn [map mq]. rewrite map_app. reflexivity.
  - intros NA. destruct (Nat.eqb_spec (length Q) (length M)) as [E1|NE]; [cbn [negb]|reflexivity].
    destruct (newRing_ok root logN [T]) as [(-> & T1 & T2 & T3 & T4)|[-> _]]; [|reflexivity]. cbn [rbind].
    destruct (newRing_ok root logN M) as [(-> & M1 & M2 & M3 & M4)|[-> _]]; [|reflexivity]. cbn [rbind].
    destruct (newRing_ok root logN Q) as [(-> & Q1 & Q2 & Q3 & Q4)|[-> _]]; [|reflexivity]. cbn [rbind].
    assert (LQ : (0 < length Q)%nat) by (destruct Q; [congruence|cbn; lia]).
    destruct (Nat.le_gt_cases 2 (length P)) as [GP|LP].
    + assert (EP : (match P with nil => Ok nil | _ => newRing root logN P end) = newRing root logN P) by (destruct P; [cbn in GP; lia|reflexivity]). rewrite EP.
      destruct (newRing_ok root logN P) as [(-> & P1 & P2 & P3 & P4)|[-> _]]; [|reflexivity]. cbn [rbind].
      destruct (newRing_ok root logN (Q ++ M)) as [(_ & R1 & R2 & R3 & R4)|[-> _]]; [|reflexivity]. exfalso. apply NA. split; [exact E1|]. split; [exact T1|]. split; [exact LQ|]. split; [exact GP|]. split; [exact R3|]. split; [exact P3|].
      intros q [<-|Hq]; [apply T4; left; reflexivity|]. apply in_app_or in Hq. destruct Hq as [Hq|Hq]; [apply Q4; exact Hq|]. apply in_app_or in Hq. destruct Hq as [Hq|Hq]; [apply M4|apply P4]; exact Hq.
    + assert (EP : (match P with nil => Ok nil | _ => newRing root logN P end) = Ok (ringOf root logN P) \/ (match P with nil => Ok nil | _ => newRing root logN P end) = Panic).
      { destruct P as [|p P]; [left; reflexivity|]. destruct (newRing_ok root logN (p :: P)) as [(-> & _)|[-> _]]; [left|right]; reflexivity. }
      destruct EP as [-> | ->]; [|reflexivity]. cbn [rbind]. destruct (newRing_ok root logN (Q ++ M)) as [(-> & R1 & R2 & R3 & R4)|[-> _]]; [|reflexivity]. cbn [rbind].
      destruct (C53_rlwe (2 ^ logN) (RP (ringOf root logN Q) (ringOf root logN P) 2) logN u) as [C1 _]; cbn [gam Qm Pm]; rewrite ?RL; try lia. rewrite C1 by (cbn [gam Pm]; rewrite RL; right; exact LP). reflexivity.
Qed.
Print Assumptions C53_bfv_accepts.

(** *** what is accepted meets the hypotheses of the other theorems, if three things hold that the constructor does not check *)
(** the sizes the library allows *)
Definition small (pl : bfvLiteral) : Prop := (bl_logN pl <= 31)%nat /\ (length (bl_Q pl) <= 32)%nat /\ (length (bl_P pl) <= 32)%nat /\ forall q, In q (bl_T pl :: bl_Q pl ++ bl_QMul pl ++ bl_P pl) -> q < 2 ^ 61.
Lemma legal_gt logN q : (0 < logN)%nat -> legal logN q -> 2 < q.
Proof.
  intros HL [P M]. pose proof (prime_ge_2 q P) as G. destruct (Z.eq_dec q 2) as [->|]; [exfalso|lia]. rewrite Z.mod_small in M; [discriminate M|].
  split; [lia|]. replace (Z.of_nat logN) with (1 + (Z.of_nat logN - 1)) by ring. rewrite Z.pow_add_r by lia. pose proof (Z.pow_pos_nonneg 2 (Z.of_nat logN - 1) ltac:(lia) ltac:(lia)). lia.
Qed.
Lemma legal_okmod root logN q : root_contract root -> (0 < logN)%nat -> legal logN q -> q < 2 ^ 61 -> okmod (N := 2 ^ logN) (Mod q (root (2 ^ logN)%nat q)).
Proof.
  intros RC HL LG B. pose proof (legal_gt logN q HL LG) as G. destruct LG as [P M]. split; [|split; [exact P|cbn; lia]]. split; [exact P|]. split; [exact G|]. split; [exists logN; reflexivity|]. cbn [mq mpsi]. apply RC; assumption.
Qed.
Lemma ringOf_okmod root logN ms : root_contract root -> (0 < logN)%nat -> (forall q, In q ms -> legal logN q /\ q < 2 ^ 61) -> Forall (okmod (N := 2 ^ logN)) (ringOf root logN ms).
Proof. intros RC HL H. unfold ringOf. apply Forall_map. apply Forall_forall. intros q Hq. destruct (H q Hq). apply legal_okmod; assumption. Qed.
Lemma nodup_app (l1 l2 : list Z) : NoDup l1 -> NoDup l2 -> (forall q, In q l1 -> ~ In q l2) -> NoDup (l1 ++ l2).
Proof.
  intros H1 H2 D. induction H1 as [|x l N1 _ IH]; [exact H2|]. cbn. constructor; [|apply IH; intros q Hq; apply D; right; exact Hq].
  intros I. apply in_app_or in I. destruct I as [I|I]; [contradiction|apply (D x); [left; reflexivity|exact I]].
Qed.
Lemma ringOf_mq root logN ms : map mq (ringOf root logN ms) = ms.
Proof. unfold ringOf. rewrite map_map. cbn [mq]. apply map_id. Qed.
(** rings of distinct legal moduli, with an allowed number of special primes *)
Lemma rings_wfp root logN Q P : root_contract root -> (4 <= logN <= 31)%nat -> (0 < length Q)%nat -> Z.of_nat (length Q) < 2 ^ 52 -> (2 <= length P <= 32)%nat -> (length P mod 2 = 0)%nat \/ length P = 3%nat ->
  NoDup (Q ++ P) -> (forall q, In q (Q ++ P) -> legal logN q /\ q < 2 ^ 61) -> wfp (2 ^ logN) (RP (ringOf root logN Q) (ringOf root logN P) 2).
Proof.
  intros RC HN HQ BQ HP HE ND HL. assert (RL : forall ms, length (ringOf root logN ms) = length ms) by (intros; apply map_length).
  assert (F : Forall (okmod (N := 2 ^ logN)) (ringOf root logN Q ++ ringOf root logN P)). { apply Forall_app. split; apply ringOf_okmod; try assumption; try lia; intros q Hq; apply HL; apply in_or_app; [left|right]; exact Hq. }
  assert (AL : alpha (RP (ringOf root logN Q) (ringOf root logN P) 2) = (length P / 2)%nat) by (unfold alpha; cbn [gam Pm]; rewrite RL; reflexivity).
  assert (D : (length P = 2 * (length P / 2) + length P mod 2)%nat) by (apply Nat.div_mod; lia).
  assert (NB : (2 <= 2 ^ logN)%nat /\ Z.of_nat (2 ^ logN) <= 2 ^ 31). { rewrite Nat2Z.inj_pow. split; [|apply Z.pow_le_mono_r; lia]. change 2%nat with (2 ^ 1)%nat at 1. apply Nat.pow_le_mono_r; lia. }
  constructor; try rewrite AL; cbn [Qm Pm gam]; rewrite ?RL; try lia.
  - unfold Qs, Ps. cbn [Qm Pm]. rewrite !ringOf_mq. split; [exact ND|]. rewrite <- (ringOf_mq root logN (Q ++ P)). apply Forall_map. unfold ringOf. rewrite map_app. apply (Forall_impl _ (P := okmod (N := 2 ^ logN))); [intros m Hm; apply Hm|]. exact F.
  - exact F.
  - destruct HE as [E | ->]; [left; lia|right; reflexivity].
  - pose proof (Nat.div_le_upper_bound (length P) 2 32). pose proof (Nat.div_str_pos (length P) 2). lia.
Qed.
Theorem C53_bfv_wf : forall root pl u uR, root_contract root -> acceptable pl -> small pl ->
  (forall q, In q (bl_Q pl ++ bl_QMul pl) -> ~ In q (bl_P pl)) -> (length (bl_P pl) mod 2 = 0)%nat \/ length (bl_P pl) = 3%nat ->
  exists p, bfvNewParametersFromLiteral root pl u uR = Ok p /\ wfb (2 ^ bl_logN pl) (bp_par p) /\ bT (bp_par p) = bl_T pl /\
    Qs (ppQ (bp_par p)) = bl_Q pl /\ Ps (ppQ (bp_par p)) = bl_P pl /\ Qs (ppR (bp_par p)) = bl_Q pl ++ bl_QMul pl /\ gam (ppQ (bp_par p)) = 2%nat /\ gam (ppR (bp_par p)) = 2%nat /\
    bp_crs p = NewCRS (ppQ (bp_par p)) (bl_logN pl) u /\ bp_crsR p = NewCRS (ppR (bp_par p)) (bl_logN pl) uR.
Proof.
  intros root pl u uR RC AC (S1 & S2 & S3 & S4) DJ HE. destruct (C53_bfv_accepts root pl u uR) as [C _]; [lia|lia|]. specialize (C AC). cbv zeta in C. eexists. split; [exact C|]. clear C. cbn [bp_par bp_crs bp_crsR].
  destruct AC as (A1 & A2 & A3 & A4 & A5 & A6 & A7). destruct pl as [logN Q M P T]. cbn [bl_logN bl_Q bl_QMul bl_P bl_T] in *.
  split; [|unfold ppQ, ppR, Qs, Ps; cbn [bT bQ bP bM Qm Pm gam]; rewrite ?map_app, ?ringOf_mq; repeat split; reflexivity].
  constructor; cbn [bQ bM bT].
  - unfold ppR. cbn [bQ bM bP]. replace (ringOf root logN Q ++ ringOf root logN M) with (ringOf root logN (Q ++ M)) by (unfold ringOf; apply map_app). apply rings_wfp; try assumption; try lia; try (rewrite app_length; lia).
    + apply nodup_app; assumption.
    + intros q Hq. assert (I : In q (T :: Q ++ M ++ P)) by (right; rewrite app_assoc; exact Hq). split; [apply A7; exact I|apply S4; exact I].
  - unfold ringOf. rewrite !map_length. exact A1.
  - unfold ringOf. rewrite map_length. lia.
  - split; [|apply S4; left; reflexivity]. pose proof (legal_gt logN T ltac:(lia) (A7 T ltac:(left; reflexivity))). lia.
Qed.
Print Assumptions C53_bfv_wf.
(** mkckks: the moduli come in rings already made by lattigo *)
Theorem C53_ckks_wf : forall root logN (Q P : list Z) logSlots scale (u : Z -> nat -> polyQP (2 ^ logN)), root_contract root -> (4 <= logN <= 31)%nat -> (0 < length Q)%nat -> Z.of_nat (length Q) < 2 ^ 52 -> Z.of_nat (length P) < 2 ^ 52 ->
  let r := ckksNewParameters (ringOf root logN Q) (ringOf root logN P) logN logSlots scale u in
  ((length P < 2)%nat -> r = Panic) /\
  ((2 <= length P)%nat -> exists p, r = Ok p /\ Qs (cp_rlwe p) = Q /\ Ps (cp_rlwe p) = P /\ gam (cp_rlwe p) = 2%nat /\ cp_crs p = NewCRS (cp_rlwe p) logN u /\ ckksSlots p = (2 ^ logSlots)%nat /\ cp_scale p = scale /\
     ((length P <= 32)%nat -> (length P mod 2 = 0)%nat \/ length P = 3%nat -> NoDup (Q ++ P) -> (forall q, In q (Q ++ P) -> legal logN q /\ q < 2 ^ 61) -> wfp (2 ^ logN) (cp_rlwe p))).
Proof.
  intros root logN Q P logSlots scale u RC HN HQ BQ BP r. assert (RL : forall ms, length (ringOf root logN ms) = length ms) by (intros; apply map_length).
  destruct (C53_rlwe (2 ^ logN) (RP (ringOf root logN Q) (ringOf root logN P) 2) logN u) as [C1 C2]; cbn [gam Qm Pm] in *; rewrite ?RL in *; try lia. unfold r, ckksNewParameters. split; intros H.
  - rewrite C1 by (right; exact H). reflexivity.
  - rewrite C2 by (split; [lia|exact H]). cbn [rbind]. eexists. split; [reflexivity|]. cbn [cp_rlwe cp_crs cp_scale]. unfold ckksSlots, Qs, Ps. cbn [Qm Pm gam cp_logSlots]. rewrite !ringOf_mq. repeat (split; [reflexivity|]). intros H32 HE ND HL. apply rings_wfp; try assumption; lia.
Qed.
Print Assumptions C53_ckks_wf.

(** *** what the constructors do not check *)
(** a prime shared by Q and P: every division by P gives 0 modulo that prime, whatever the operands; so does every external product *)
Lemma mred_0l y q qi : 0 < q < Word.W -> mred 0 y q qi = 0.
Proof.
  intros H. unfold mred, mul_hi, mul_lo. rewrite Z.mul_0_l, Z.mod_0_l, Z.div_0_l by (unfold Word.W; lia). change (w64 (0 * qi)) with 0. rewrite ?Z.mul_0_l, ?Z.div_0_l by (unfold Word.W; lia).
  replace (0 - 0 + q) with q by lia. unfold w64. rewrite Z.mod_small by lia. unfold cred. rewrite Z.leb_refl. lia.
Qed.
Lemma mred_0r x q qi : 0 < q < Word.W -> mred x 0 q qi = 0.
Proof. intros H. rewrite <- (mred_0l x q qi H) at 2. unfold mred, mul_hi, mul_lo. rewrite Z.mul_0_r, Z.mul_0_l. reflexivity. Qed.
Lemma mod_down_0 Q i : Forall okq Q -> (i < length Q)%nat -> forall P prev, (0 < length P)%nat -> In (nth i Q 0) P \/ match prev with Some r => nth i r 0 = 0 | None => False end ->
  nth i (nth (length P - 1) (gen_mod_down Q P prev) nil) 0 = 0.
Proof.
  intros FQ Hi. induction P as [|p P IH]; intros prev HP HI; [cbn in HP; lia|]. cbn [gen_mod_down].
  set (row := map _ (combine (seq 0 (length Q)) Q)).
  assert (RW : p = nth i Q 0 \/ match prev with Some r => nth i r 0 = 0 | None => False end -> nth i row 0 = 0).
  { intros H. unfold row. rewrite (nth_map' _ _ _ (O, 0)) by (rewrite combine_length, seq_length, Nat.min_id; assumption). rewrite nth_combine_seq by assumption. cbn [plus]. set (q := nth i Q 0) in *.
    assert (K : okq q) by (apply (proj1 (Forall_forall _ _) FQ); apply nth_In; assumption). pose proof (okq_lt q K) as QL. pose proof K as [Pq Bq]. assert (QW : 0 < q < Word.W) by lia.
    destruct H as [-> | H].
    - rewrite mod_exp_ok by lia. assert (E : q ^ (q - 2) mod q = 0). { replace (q - 2) with (1 + (q - 3)) by ring. rewrite Z.pow_add_r, Z.pow_1_r, Z.mul_comm by lia. apply Z_mod_mult. }
      rewrite E. destruct (mform_mont 0 q K ltac:(lia)) as [M1 M2]. rewrite Z.mul_0_l in M2. apply eqz_iff in M2; [|lia]. rewrite Z.mod_small, Z.mod_0_l in M2 by lia. rewrite M2. destruct prev as [r|]; [apply mred_0l; exact QW|reflexivity].
    - destruct prev as [r|]; [|contradiction]. rewrite H. apply mred_0r. exact QW. }
  destruct P as [|p' P].
  - cbn. apply RW. destruct HI as [[->|[]]|HI]; [left; reflexivity|right; exact HI].
  - replace (length (p :: p' :: P) - 1)%nat with (S (length (p' :: P) - 1))%nat by (cbn; lia). cbn [nth]. apply IH; [cbn; lia|].
    destruct HI as [[->|HI]|HI]; [right; apply RW; left; reflexivity|left; exact HI|right; apply RW; right; exact HI].
Qed.
Lemma md_out_0 q x y : okq q -> md_out q x y 0 = 0.
Proof.
  intros K. unfold md_out. rewrite Z.sub_0_r. pose proof (okq_lt q K) as QL. pose proof K as [Pq Bq]. assert (EW : w64 q = q) by (unfold w64; apply Z.mod_small; lia). rewrite EW.
  set (z := w64 _). assert (Hz : 0 <= z < Word.W) by (unfold z, w64; apply Z.mod_pos_bound; reflexivity). destruct (mred_ok z q q) as [B C]; try lia; [apply okq_odd; exact K|unfold Word.W in *; nia|].
  assert (D : (q | mred z q q (mred_params q))).
  { apply (Gauss q Word.W). { destruct C as [c C]. exists (c + z). lia. } apply prime_rel_prime; [exact Pq|]. intros X. change Word.W with (2 ^ 64) in X. apply prime_power_prime in X; [lia|lia|exact Pq|exact prime_2]. }
  destruct D as [d D]. set (v := mred _ _ _ _) in *. clearbody v. clear - B D QL. destruct (Z.eq_dec d 0) as [->|]; [lia|]. exfalso. assert (d <= -1 \/ 1 <= d) as [X|X] by lia; nia.
Qed.

Theorem C53_common_prime_refuted : forall N pp level (a : poly N) (bg : swk N) rows i, Forall okq (Qs pp ++ Ps pp) -> (i <= level < length (Qm pp))%nat -> In (nth i (Qs pp) 0) (Ps pp) ->
  ExternalProduct pp level a bg = Ok rows -> row rows i = R0.
Proof.
  intros N pp level a bg rows i F Hi HI E. unfold ExternalProduct in E. destruct (Decompose pp level a) as [ds|]; [|discriminate E]. cbn [rbind] in E. destruct (mac_digits pp level bg ds) as [c|]; [|discriminate E]. cbn [rbind] in E.
  unfold rescaleP, colmap in E. set (c' := lvl1 pp level intt c) in *. clearbody c'. destruct (rmapM _ (seq 0 N)) as [cols|] eqn:EC; [|discriminate E]. cbn [rbind] in E. injection E as <-.
  apply Forall_app in F. destruct F as [FQ FP]. assert (LQ : length (Qs pp) = length (Qm pp)) by apply map_length. assert (LP : length (Ps pp) = length (Pm pp)) by apply map_length.
  assert (PP : (0 < length (Ps pp))%nat) by (destruct (Ps pp); [destruct HI|cbn; lia]).
  assert (K : okq (nth i (Qs pp) 0)) by (apply (proj1 (Forall_forall _ _) FQ); apply nth_In; lia).
  unfold row. rewrite nth_tab by lia. apply R_ext. intros x Hx. rewrite co_mkR, co_R0 by exact Hx.
  assert (X : nth i (nth x cols nil) 0 = 0); [|exact X].
  assert (G : forall st n cl, rmapM (fun x => ModDownQPtoQ (Qs pp) (Ps pp) level (levelP pp) (col (qpQ c') x) (col (qpP c') x)) (seq st n) = Ok cl -> forall x, (x < n)%nat -> nth i (nth x cl nil) 0 = 0).
  { intros st n. revert st. induction n as [|n IH]; intros st cl Ecl y Hy; [lia|]. cbn [seq rmapM] in Ecl. destruct (ModDownQPtoQ _ _ _ _ _ _) as [o|] eqn:EO; [|discriminate Ecl]. cbn [rbind] in Ecl.
    destruct (rmapM _ (seq (S st) n)) as [os|] eqn:ES; [|discriminate Ecl]. cbn [rbind] in Ecl. injection Ecl as <-. destruct y as [|y]; [|cbn [nth]; apply (IH (S st) os ES); lia].
    cbn [nth]. unfold ModDownQPtoQ in EO. destruct (ModUp _ _ _ _ _) as [pool|]; [|discriminate EO]. cbn [rbind] in EO. rewrite (idx_nth _ _ nil) in EO by (unfold genModDownParams; rewrite gen_mod_down_len; unfold levelP; lia). cbn [rbind] in EO. apply (f_equal (fun r => match r with Ok v => v | Panic => nil end)) in EO. cbv beta iota in EO. rewrite <- EO.
    rewrite (nth_map' _ _ _ O) by (rewrite seq_length; lia). rewrite seq_nth by lia. cbn [plus]. assert (MD : nth i (nth (levelP pp) (genModDownParams (Qs pp) (Ps pp)) nil) 0 = 0).
    { unfold levelP. rewrite <- LP. apply mod_down_0; [exact FQ|lia|exact PP|left; exact HI]. }
    rewrite MD. apply md_out_0. exact K. }
  apply (G O N cols EC). exact Hx.
Qed.
Print Assumptions C53_common_prime_refuted.
(** an odd number of special primes, five or more, is accepted; every decomposition above level 0 panics *)
Theorem C53_odd_special_primes_refuted : forall N pp level (a : poly N), (0 < N)%nat -> gam pp = 2%nat -> (5 <= length (Pm pp))%nat -> (length (Pm pp) mod 2 <> 0)%nat -> (1 <= level < length (Qm pp))%nat -> Z.of_nat (length (Qm pp)) < 2 ^ 52 -> Z.of_nat (length (Pm pp)) < 2 ^ 52 ->
  Decompose pp level a = Panic.
Proof.
  intros N pp level a HN HG HP HO HL BQ BP. pose proof (Nat.div_mod (length (Pm pp)) 2 ltac:(lia)) as DM. pose proof (Nat.mod_upper_bound (length (Pm pp)) 2 ltac:(lia)) as MB.
  assert (A2 : (2 <= alpha pp)%nat) by (unfold alpha; rewrite HG; lia). assert (AU : (alpha pp <= length (Pm pp))%nat) by (unfold alpha; rewrite HG; lia).
  assert (B1 : exists b, beta pp level = S b).
  { assert (X : (0 < beta pp level)%nat). { unfold beta, beta_of. rewrite f_ceil_div_ok by lia. pose proof (Z.div_str_pos (Z.of_nat (level + 1) + Z.of_nat (alpha pp) - 1) (Z.of_nat (alpha pp)) ltac:(lia)). lia. } destruct (beta pp level) as [|b]; [lia|exists b; reflexivity]. }
  destruct B1 as [b EB]. unfold Decompose. rewrite EB. cbn [seq rmapM].
  assert (E : DecomposeSingleNTT pp level 0 (inv_form pp level a) = Panic); [|rewrite E; reflexivity].
  unfold DecomposeSingleNTT. destruct (_ <=? _)%nat; [reflexivity|]. unfold colmap. destruct N as [|N]; [lia|]. cbn [seq rmapM].
  assert (LP : length (Ps pp) = length (Pm pp)) by apply map_length.
  replace (levelP pp) with (length (Ps pp) - 1)%nat by (unfold levelP; lia).
  rewrite (C11_gamma_must_divide (Qs pp) (Ps pp) (gam pp) (alpha pp) level 0); [reflexivity|lia|unfold alpha; rewrite LP; reflexivity|exact A2|rewrite LP, HG; exact HO|lia].
Qed.
Print Assumptions C53_odd_special_primes_refuted.

(** *** the hypotheses are met *)
Definition litOf (logN : nat) (b : bparams) : bfvLiteral := BL logN (map mq (bQ b)) (map mq (bM b)) (map mq (bP b)) (bT b).
Lemma litOf_acceptable N logN b : N = (2 ^ logN)%nat -> (4 <= logN <= 31)%nat -> Forall (okmod (N := N)) (Qm (ppR b) ++ Pm (ppR b)) -> legal logN (bT b) -> bT b < 2 ^ 61 ->
  (length (bQ b) = length (bM b))%nat -> (0 < length (bQ b) <= 32)%nat -> (2 <= length (bP b) <= 32)%nat -> ParamsModel.distinct (map mq (bQ b) ++ map mq (bM b) ++ map mq (bP b)) = true ->
  forallb (fun q => q mod (2 * 2 ^ Z.of_nat logN) =? 1) (map mq (bQ b) ++ map mq (bM b) ++ map mq (bP b)) = true ->
  acceptable (litOf logN b) /\ small (litOf logN b) /\ (forall q, In q (bl_Q (litOf logN b) ++ bl_QMul (litOf logN b)) -> ~ In q (bl_P (litOf logN b))).
Proof.
  intros -> HN F LT BT LQ HQ HP D M. unfold acceptable, small, litOf. cbn [bl_logN bl_Q bl_QMul bl_P bl_T]. rewrite !map_length. apply distinct_ok in D. rewrite forallb_forall in M.
  assert (L : forall q, In q (bT b :: map mq (bQ b) ++ map mq (bM b) ++ map mq (bP b)) -> legal logN q /\ q < 2 ^ 61).
  { intros q [<-|Hq]; [split; assumption|]. specialize (M q Hq). apply Z.eqb_eq in M. unfold ppR in F. cbn [Qm Pm] in F. rewrite <- !map_app in Hq. apply in_map_iff in Hq. destruct Hq as (m & <- & Hm).
    rewrite <- app_assoc in F. rewrite Forall_forall in F. destruct (F m Hm) as [_ [P1 P2]]. split; [split; [exact P1|exact M]|lia]. }
  assert (DD : forall l1 l2 : list Z, NoDup (l1 ++ l2) -> forall q, In q l1 -> ~ In q l2).
  { induction l1 as [|x l1 IH]; intros l2 H q I1 I2; [destruct I1|]. cbn in H. inversion H as [|? ? NI H']; subst. destruct I1 as [<-|I1]; [apply NI; apply in_or_app; right; exact I2|exact (IH l2 H' q I1 I2)]. }
  rewrite app_assoc in D. split; [|split].
  - split; [exact LQ|]. split; [lia|]. split; [lia|]. split; [lia|]. split; [apply NoDup_app_remove_r in D; exact D|]. split; [apply NoDup_app_remove_l in D; exact D|]. intros q Hq. apply L. exact Hq.
  - split; [lia|]. split; [lia|]. split; [lia|]. intros q Hq. apply L. exact Hq.
  - apply DD. exact D.
Qed.
Lemma pr_65537 : prime 65537.
Proof. apply (pocklington _ [Wit 2 16 3]); [constructor; [exact pr_2|]; constructor|vm_compute; reflexivity]. Qed.
(** the BFV sets of the repository *)
Theorem C53_shipped : (acceptable (litOf 15 bfv15) /\ small (litOf 15 bfv15) /\ (forall q, In q (bl_Q (litOf 15 bfv15) ++ bl_QMul (litOf 15 bfv15)) -> ~ In q (bl_P (litOf 15 bfv15))) /\ length (bl_P (litOf 15 bfv15)) = 2%nat) /\
  (acceptable (litOf 14 bfv14) /\ small (litOf 14 bfv14) /\ (forall q, In q (bl_Q (litOf 14 bfv14) ++ bl_QMul (litOf 14 bfv14)) -> ~ In q (bl_P (litOf 14 bfv14))) /\ length (bl_P (litOf 14 bfv14)) = 2%nat).
Proof.
  split.
  - destruct (litOf_acceptable N15 15 bfv15) as (A & B & C); [exact N15_pow|lia|exact bfv15_okm|split; [exact pr_65537|reflexivity]|vm_compute; reflexivity|reflexivity|cbn; lia|cbn; lia|vm_compute; reflexivity|vm_compute; reflexivity|].
    split; [exact A|]. split; [exact B|]. split; [exact C|reflexivity].
  - destruct (litOf_acceptable N14 14 bfv14) as (A & B & C); [exact N14_pow|lia|exact bfv14_okm|split; [exact pr_65537|reflexivity]|vm_compute; reflexivity|reflexivity|cbn; lia|cbn; lia|vm_compute; reflexivity|vm_compute; reflexivity|].
    split; [exact A|]. split; [exact B|]. split; [exact C|reflexivity].
Qed.
Print Assumptions C53_shipped.

(** an accepted literal whose Q and P share a prime, one with five special primes, and key-switching calls with the parameters made from them *)
Definition exp_common : bfvLiteral := BL 4 [97] [193] [97; 257] 449.
Definition exp_odd : bfvLiteral := BL 4 [97; 193] [257; 353] [449; 577; 641; 673; 769] 97.
Lemma exp_acceptable pl : ((length (bl_Q pl) =? length (bl_QMul pl)) && (4 <=? bl_logN pl) && (0 <? length (bl_Q pl)) && (2 <=? length (bl_P pl)))%nat%bool && ParamsModel.distinct (bl_Q pl ++ bl_QMul pl) && ParamsModel.distinct (bl_P pl) &&
  forallb (fun q => is_prime q && (q mod (2 * 2 ^ Z.of_nat (bl_logN pl)) =? 1)) (bl_T pl :: bl_Q pl ++ bl_QMul pl ++ bl_P pl) = true -> acceptable pl.
Proof.
  intros H. apply andb_prop in H as [H H7]. apply andb_prop in H as [H H6]. apply andb_prop in H as [H H5]. apply andb_prop in H as [H H4]. apply andb_prop in H as [H H3]. apply andb_prop in H as [H1 H2].
  apply Nat.eqb_eq in H1. apply Nat.leb_le in H2, H4. apply Nat.ltb_lt in H3. apply distinct_ok in H5, H6. rewrite forallb_forall in H7. split; [exact H1|]. split; [exact H2|]. split; [exact H3|]. split; [exact H4|]. split; [exact H5|]. split; [exact H6|].
  intros q Hq. specialize (H7 q Hq). apply andb_prop in H7 as [A B]. split; [apply is_prime_ok; exact A|apply Z.eqb_eq; exact B].
Qed.
Definition exp_root (N : nat) (q : Z) : Z := match find (fun r => (powm q r (Z.of_nat N)) =? q - 1) (map Z.of_nat (seq 0 (Z.to_nat q))) with Some r => r | None => 0 end.
Theorem C53_unchecked_examples : acceptable exp_common /\ acceptable exp_odd /\
  (let pp := RP (ringOf exp_root 1 (bl_Q exp_common)) (ringOf exp_root 1 (bl_P exp_common)) 2 in (* the same moduli at ring degree 2 *)
   let one : poly 2 := Pol [mkR (fun i => if (i =? 0)%nat then 1 else 0)] false in
   Forall okq (Qs pp ++ Ps pp) /\ In (nth 0 (Qs pp) 0) (Ps pp) /\ exists rows, ExternalProduct pp 0 one [QP [mkR (fun _ => 5)] [mkR (fun _ => 6); mkR (fun _ => 7)]] = Ok rows) /\
  (let pp := RP (ringOf exp_root 4 (bl_Q exp_odd)) (ringOf exp_root 4 (bl_P exp_odd)) 2 in gam pp = 2%nat /\ (5 <= length (Pm pp))%nat /\ (length (Pm pp) mod 2 <> 0)%nat /\ (1 < length (Qm pp))%nat).
Proof.
  split; [apply exp_acceptable; vm_compute; reflexivity|]. split; [apply exp_acceptable; vm_compute; reflexivity|]. split.
  - intros pp one. split; [|split].
    + unfold Qs, Ps, pp. cbn [Qm Pm]. rewrite !ringOf_mq. cbn [bl_Q bl_P exp_common app]. repeat (apply Forall_cons; [split; [apply is_prime_ok; vm_compute; reflexivity|lia]|]); apply Forall_nil.
    + left. reflexivity.
    + destruct (ExternalProduct pp 0 one _) as [rows|] eqn:E; [exists rows; reflexivity|exfalso]. apply (f_equal (fun r => match r with Ok _ => true | Panic => false end)) in E. revert E. vm_compute. discriminate.
  - split; [reflexivity|]. cbn. split; [lia|]. split; [discriminate|lia].
Qed.
Print Assumptions C53_unchecked_examples.
