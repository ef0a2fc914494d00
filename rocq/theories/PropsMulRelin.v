(** C44: MulRelinNew and MulRelinHoistedNew of mkckks, end to end: hoisting into the key set's buffers, multiplication with relinearisation, rescaling. *)
From Flocq Require Import Core BinarySingleNaN.
From Coq Require Import Znumtheory Setoid Morphisms Reals Lra.
From Verif Require Import Base IdSetModel IdSetSpec IdSetProofs KeySetModel NumTheory Negacyclic Ntt Word BasisExt BasisExtProofs Rows RlweModel KeyGenModel SchemeSpec ExtProd ExtProps Galois KeyGenProofs Instance CtModel CtSpec CtProofs EncDecProofs PropsEnc KeySwitchModel Digits KsLoops RotProofs ConjProofs MulProofs PropsKeySwitch FloatModel CkksFloat CkksModel FloatProofs CkksFloatProofs CkksProofs CkksRescale PropsCkks PropsRescale.
Open Scope Z_scope.

Lemma decompose_some {N} pp lin (c : ctT N) id : wfp N pp -> (lin < length (Qm pp))%nat -> wfct pp lin false c -> In id (keys c) -> exists ds, Decompose pp lin (comp c id) = Ok ds.
Proof.
  intros WF HL W Hid. destruct (wfct_comp pp _ _ _ _ W Hid) as (L & F & I).
  destruct (hdig_plain pp WF lin c id HL Hid F) as (ds & D & A1 & _); [split; [lia|]; intros j Hj; apply I; lia|].
  exists ds. unfold hdig, cgetL in A1. rewrite (cget_comp c id Hid) in A1. cbn [rbind] in A1. destruct (Nat.leb_spec (length (prows (comp c id))) lin); [lia|]. exact A1.
Qed.
Lemma hoistInto_ok {N} pp o (rs : rlkset N) (c : ckct N) ids lin : wfp N pp -> ord1_ok o -> (lin < length (Qm pp))%nat -> wfct pp lin false (cv c) ->
  (forall x, In x (keys ids) <-> x <> id0 /\ In x (keys (cv c))) -> (forall id, In id (parties (cv c)) -> exists k, rlk_get rs id = Ok k) ->
  exists h, hoistInto pp o rs c ids = Ok h /\ hoisted_at pp lin (cv c) (Some h).
Proof.
  intros WF O HL W KI HK. unfold hoistInto. rewrite (wfct_level pp _ _ _ W). cbn [rbind].
  assert (G : forall l h0, (forall x, In x l -> In x (parties (cv c))) ->
    exists h, rfold (fun h id => p <- cgetL (cv c) id lin ;; _ <- rlk_get rs id ;; d <- Decompose pp lin p ;; Ok (mset seq_dec h id d)) l h0 = Ok h /\
      forall id, In id l \/ (exists ds, Decompose pp lin (comp (cv c) id) = Ok ds /\ mget seq_dec h0 id = Some ds) -> exists ds, Decompose pp lin (comp (cv c) id) = Ok ds /\ mget seq_dec h id = Some ds).
  { induction l as [|x l IH]; intros h0 Hl; cbn [rfold]; [exists h0; split; [reflexivity|]; intros id [[]|H]; exact H|].
    assert (Px : In x (parties (cv c))) by (apply Hl; left; reflexivity). apply in_parties in Px as Px'. destruct Px' as [_ Kx].
    destruct (wfct_comp pp _ _ _ _ W Kx) as (L & _). rewrite cgetL_comp by (trivial; lia). cbn [rbind]. destruct (HK x Px) as [k Ek]. rewrite Ek. cbn [rbind].
    destruct (decompose_some pp lin (cv c) x WF HL W Kx) as [ds Eds]. rewrite Eds. cbn [rbind].
    destruct (IH (mset seq_dec h0 x ds)) as (h & H1 & H2); [intros y Hy; apply Hl; right; exact Hy|]. exists h. split; [exact H1|]. intros id Hid. apply H2.
    destruct (string_dec x id) as [->|n].
    - right. exists ds. split; [exact Eds|]. rewrite mget_mset. destruct (seq_dec id id); congruence.
    - destruct Hid as [[Hid|Hid]|(ds' & D1 & D2)]; [contradiction|left; exact Hid|right]. exists ds'. split; [exact D1|]. rewrite mget_mset. destruct (seq_dec id x); [congruence|exact D2]. }
  destruct (G (o (keys ids)) nil) as (h & H1 & H2).
  { intros x Hx. apply in_parties. apply KI. apply (Permutation_in _ (O (keys ids))). exact Hx. }
  exists h. split; [exact H1|]. intros id Hid. apply H2. left. apply (Permutation_in _ (Permutation_sym (O (keys ids)))). apply KI. apply in_parties. exact Hid.
Qed.

(** the relinearised product before the rescaling *)
Lemma hoistedNew_pre {N} pp (o : IdSetModel.order) crs pscale (c0 c1 : ckct N) h0 h1 rs (s r : string -> R N) a u B T l0 l1 : wfp N pp -> order_ok o -> small_ok pp B ->
  (l0 < length (Qm pp))%nat -> (l1 < length (Qm pp))%nat -> wfct pp l0 false (cv c0) -> wfct pp l1 false (cv c1) ->
  mget Z.eq_dec crs 0 = Some a -> mget Z.eq_dec crs (-1) = Some u -> crs_ok pp a -> crs_ok pp u ->
  (forall id, In id (parties (cv c0)) \/ In id (parties (cv c1)) -> has_relin_key pp crs rs B T id (s id) (r id)) ->
  hoisted_at pp l0 (cv c0) (Some h0) -> hoisted_at pp l1 (cv c1) (Some h1) ->
  let level := Nat.min l0 l1 in
  exists v E, (MulRelinHoistedNew pp o crs pscale c0 c1 (Some h0) (Some h1) rs = '(out, _) <- Rescale pp (o 41%nat) (CK v (f_mul (csc c0) (csc c1))) pscale None ;; Ok out) /\
    wfct pp level false v /\ (forall x, In x (keys v) <-> In x (keys (cv c0)) \/ In x (keys (cv c1))) /\
    bnd E (mul_noise N pp level (length (parties (cv c0))) (length (parties (cv c1))) (dig_bound pp l0) (dig_bound pp l1) B T) /\
    forall j, (j <= level)%nat -> eqm (mq (Qi pp j)) (phase pp s v j) (add (mul (phase pp s (cv c0) j) (phase pp s (cv c1) j)) E).
Proof.
  intros WF O SM H0 H1 W0 W1 GA GU CA CU HK HH0 HH1 level. unfold MulRelinHoistedNew.
  destruct (newBinary_ok pp WF o c0 c1 l0 l1 O H0 H1 (wfct_shape pp _ _ W0) (wfct_shape pp _ _ W1)) as (w & A & WU & KU). rewrite A. cbn [rbind cv].
  unfold mulRelinHoisted. rewrite (wfct_level pp _ _ _ W0), (wfct_level pp _ _ _ W1). cbn [rbind cv]. rewrite (wfct_level pp _ _ _ WU). cbn [rbind].
  rewrite Nat.min_id. destruct (Nat.ltb_spec (Nat.min l0 l1) (Nat.min l0 l1)); [lia|]. cbn [rbind cv].
  destruct (C20_mul_and_relin_hoisted N pp level l0 l1 o crs (cv c0) (cv c1) h0 h1 rs w s r a u B T) as (v & E & X1 & X2 & X3 & X4 & X5); trivial; try (unfold level; lia).
  exists v, E. rewrite X1. cbn [rbind]. split; [reflexivity|]. split; [exact X2|]. split; [exact X3|]. split; assumption.
Qed.

Definition mul_rescaled {N} (pp : rparams) (s : string -> R N) (c0 c1 : ctT N) l0 l1 B T nb (v : ctT N) : Prop :=
  let level := Nat.min l0 l1 in
  exists E, bnd E (mul_noise N pp level (length (parties c0)) (length (parties c1)) (dig_bound pp l0) (dig_bound pp l1) B T) /\
    forall m0 m1, decrypts pp s c0 level m0 -> decrypts pp s c1 level m1 ->
      exists m', rescaled (prodl (dropped pp nb level)) (length (parties v)) T (add (mul m0 m1) E) m' /\ decrypts pp s v (level - nb) m'.

Theorem C44_mul_relin_hoisted_new : forall N pp (o : IdSetModel.order) crs pscale (c0 c1 : ckct N) h0 h1 rs (s r : string -> R N) a u B T l0 l1 nb, wfp N pp -> order_ok o -> small_ok pp B ->
  (1 <= l0 < length (Qm pp))%nat -> (1 <= l1 < length (Qm pp))%nat -> wfct pp l0 false (cv c0) -> wfct pp l1 false (cv c1) ->
  mget Z.eq_dec crs 0 = Some a -> mget Z.eq_dec crs (-1) = Some u -> crs_ok pp a -> crs_ok pp u ->
  (forall id, In id (parties (cv c0)) \/ In id (parties (cv c1)) -> has_relin_key pp crs rs B T id (s id) (r id)) ->
  hoisted_at pp l0 (cv c0) (Some h0) -> hoisted_at pp l1 (cv c1) (Some h1) ->
  let level := Nat.min l0 l1 in let scale := f_mul (csc c0) (csc c1) in
  f_le pscale f_zero = false -> f_eq scale f_zero = false -> divisions pp level scale (f_div pscale (f_of_int 2)) nb ->
  exists v, MulRelinHoistedNew pp o crs pscale c0 c1 (Some h0) (Some h1) rs = Ok (CK v (rscale pp level scale nb)) /\ wfct pp (level - nb) false v /\
    (forall x, In x (keys v) <-> In x (keys (cv c0)) \/ In x (keys (cv c1))) /\ mul_rescaled pp s (cv c0) (cv c1) l0 l1 B T nb v.
Proof.
  intros N pp o crs pscale c0 c1 h0 h1 rs s r a u B T l0 l1 nb WF O SM H0 H1 W0 W1 GA GU CA CU HK HH0 HH1 level scale M1 M2 D.
  destruct (hoistedNew_pre pp o crs pscale c0 c1 h0 h1 rs s r a u B T l0 l1 WF O SM ltac:(lia) ltac:(lia) W0 W1 GA GU CA CU HK HH0 HH1) as (v & E & X1 & X2 & X3 & X4 & X5).
  fold level in X2, X4, X5. fold scale in X1. rewrite X1.
  destruct (C26_rescale N pp (o 41%nat) (CK v scale) pscale level nb WF (fun l => O 41%nat l) ltac:(unfold level; lia) X2 M1 M2 D) as (w & U1 & U2 & U3 & U4). cbn [cv csc] in *.
  rewrite U1. cbn [rbind]. exists w. split; [reflexivity|]. split; [exact U2|]. split; [intros x; rewrite U3; apply X3|].
  exists E. split; [exact X4|]. intros m0 m1 D0 D1. fold level in D0, D1 |- *.
  assert (LPn : length (parties w) = length (parties v)).
  { apply Permutation_length. apply NoDup_Permutation; [apply parties_nodup; apply U2|apply parties_nodup; apply X2|]. intros x. rewrite !in_parties, U3. reflexivity. }
  rewrite LPn. apply U4.
  - intros x Hx. apply in_parties in Hx as [Hx1 Hx2]. apply X3 in Hx2.
    destruct (HK x) as (sk & rk & sb & sd & sv & eb & ed & ev & key & _ & _ & K3 & _); [|exact K3]. destruct Hx2; [left|right]; apply in_parties; tauto.
  - intros j Hj. eapply eqm_trans; [apply X5; assumption|]. apply eqm_add; [|apply eqm_refl]. apply eqm_mul; [apply D0|apply D1]; assumption.
Qed.
Print Assumptions C44_mul_relin_hoisted_new.

(** MulRelinNew; [same] = the two operands are one object *)
Theorem C44_mul_relin_new : forall N pp (o : IdSetModel.order) crs pscale (c0 c1 : ckct N) (same : bool) rs (s r : string -> R N) a u B T l0 l1 nb, wfp N pp -> order_ok o -> small_ok pp B ->
  (same = true -> c0 = c1) ->
  (1 <= l0 < length (Qm pp))%nat -> (1 <= l1 < length (Qm pp))%nat -> wfct pp l0 false (cv c0) -> wfct pp l1 false (cv c1) ->
  mget Z.eq_dec crs 0 = Some a -> mget Z.eq_dec crs (-1) = Some u -> crs_ok pp a -> crs_ok pp u ->
  (forall id, In id (parties (cv c0)) \/ In id (parties (cv c1)) -> has_relin_key pp crs rs B T id (s id) (r id)) ->
  let level := Nat.min l0 l1 in let scale := f_mul (csc c0) (csc c1) in
  f_le pscale f_zero = false -> f_eq scale f_zero = false -> divisions pp level scale (f_div pscale (f_of_int 2)) nb ->
  exists v, MulRelinNew pp o crs pscale c0 c1 same rs = Ok (CK v (rscale pp level scale nb)) /\ wfct pp (level - nb) false v /\
    (forall x, In x (keys v) <-> In x (keys (cv c0)) \/ In x (keys (cv c1))) /\ mul_rescaled pp s (cv c0) (cv c1) l0 l1 B T nb v.
Proof.
  intros N pp o crs pscale c0 c1 same rs s r a u B T l0 l1 nb WF O SM SE H0 H1 W0 W1 GA GU CA CU HK level scale M1 M2 D.
  assert (RK : forall id, In id (parties (cv c0)) \/ In id (parties (cv c1)) -> exists k, rlk_get rs id = Ok k).
  { intros id Hid. destruct (has_relin_ok pp crs rs B T id (s id) (r id) a u WF SM GA GU CA CU (HK id Hid)) as (k & E & _). exists k. exact E. }
  assert (HI : forall n (c : ckct N), exists ids, IDSetOf (o n) (cv c) = Ok ids /\ forall x, In x (keys ids) <-> x <> id0 /\ In x (keys (cv c))).
  { intros n c. destruct (IDSetOf_ok (o n) (cv c)) as (ids & A & _ & X); [intros l; apply O|]. exists ids. split; [exact A|]. intros x. rewrite <- X. unfold is_has. rewrite mhas_In. reflexivity. }
  unfold MulRelinNew. destruct (HI 60%nat c0) as (ids0 & A0 & B0). rewrite A0. cbn [rbind].
  destruct (hoistInto_ok pp (o 61%nat) rs c0 ids0 l0 WF (fun l => O 61%nat l) ltac:(lia) W0 B0) as (h0 & E0 & HH0); [intros id Hid; apply RK; left; exact Hid|].
  destruct same.
  - rewrite E0. cbn [rbind]. specialize (SE eq_refl). subst c1.
    assert (L01 : l0 = l1).
    { pose proof (wfct_level pp _ _ _ W0) as X. rewrite (wfct_level pp _ _ _ W1) in X. congruence. }
    apply (C44_mul_relin_hoisted_new N pp o crs pscale c0 c0 h0 h0 rs s r a u B T l0 l1 nb); trivial. rewrite <- L01. exact HH0.
  - destruct (HI 62%nat c1) as (ids1 & A1 & B1). rewrite A1. cbn [rbind]. rewrite E0. cbn [rbind].
    destruct (hoistInto_ok pp (o 63%nat) rs c1 ids1 l1 WF (fun l => O 63%nat l) ltac:(lia) W1 B1) as (h1 & E1 & HH1); [intros id Hid; apply RK; right; exact Hid|].
    rewrite E1. cbn [rbind]. apply (C44_mul_relin_hoisted_new N pp o crs pscale c0 c1 h0 h1 rs s r a u B T l0 l1 nb); trivial.
Qed.
Print Assumptions C44_mul_relin_new.
(** the digits come from buffers of the key set: a party of an operand without a relinearisation key makes MulRelinNew panic *)
Theorem C44_missing_key : forall N pp (o : IdSetModel.order) crs pscale (c0 c1 : ckct N) rs l0 id, wfp N pp -> order_ok o -> (l0 < length (Qm pp))%nat -> wfct pp l0 false (cv c0) ->
  In id (parties (cv c0)) -> mget seq_dec rs id = None -> forall same, MulRelinNew pp o crs pscale c0 c1 same rs = Panic.
Proof.
  intros N pp o crs pscale c0 c1 rs l0 id WF O HL W Hid NK same. unfold MulRelinNew.
  destruct (IDSetOf_ok (o 60%nat) (cv c0)) as (ids & A & _ & X); [intros l; apply O|]. rewrite A. cbn [rbind].
  assert (HP : hoistInto pp (o 61%nat) rs c0 ids = Panic).
  { unfold hoistInto. rewrite (wfct_level pp _ _ _ W). cbn [rbind].
    assert (I : In id (o 61%nat (keys ids))).
    { apply (Permutation_in _ (Permutation_sym (O 61%nat (keys ids)))). apply in_parties in Hid. apply X in Hid. unfold is_has in Hid. apply mhas_In in Hid. exact Hid. }
    revert I. generalize (o 61%nat (keys ids)). generalize (@nil (string * swk N)). intros h l. revert h. induction l as [|y l IH]; intros h I; [destruct I|]. cbn [rfold].
    destruct (cgetL (cv c0) y l0) as [p|]; cbn [rbind]; [|reflexivity]. destruct I as [<-|I].
    - unfold rlk_get. rewrite NK. reflexivity.
    - destruct (rlk_get rs y); cbn [rbind]; [|reflexivity]. destruct (Decompose pp l0 p); cbn [rbind]; [|reflexivity]. apply IH. exact I. }
  destruct same; [rewrite HP; reflexivity|]. destruct (IDSetOf (o 62%nat) (cv c1)); cbn [rbind]; [|reflexivity]. rewrite HP. reflexivity.
Qed.
Print Assumptions C44_missing_key.
