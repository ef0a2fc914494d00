(** C60: FastBasisExtender.ModDownQPtoQNTT (mkrlwe/basis_extension.go:239-285), the division by P of a polynomial in the NTT domain. *)
From Verif Require Import Base NumTheory Negacyclic Ntt Word FloatModel BasisExt BasisExtProofs DecompProofs BasisSpec PropsBasis Rows RlweModel SchemeSpec ExtProd ExtProps CtProofs Instance.
From Coq Require Import Znumtheory Setoid Morphisms.
Open Scope Z_scope.

(** ** contracts of lattigo's lazy transforms: words below 2q, congruent to the transform (NTTLazy is applied to words below 6q) *)
Definition lazy_ntt {N} (m : modulus) (f : R N -> R N) : Prop :=
  forall a, (forall j, (j < N)%nat -> 0 <= co a j < 6 * mq m) -> forall j, (j < N)%nat -> 0 <= co (f a) j < 2 * mq m /\ eqz (mq m) (co (f a) j) (co (ntt m a) j).
Definition lazy_intt {N} (m : modulus) (f : R N -> R N) : Prop :=
  forall a, canon m a -> forall j, (j < N)%nat -> 0 <= co (f a) j < 2 * mq m /\ eqz (mq m) (co (f a) j) (co (intt m a) j).

Section Model.
  Context {N : nat}.
  Notation R := (R N).
  (** basis_extension.go:239-285.  [il], [nl]: InvNTTLazy, NTTLazy; the result is (p2Q, p1P): line 248 overwrites p1P with its inverse transform.
      Line 252: the buffer is filled row by row for all coefficients before the division; each word of p2Q depends on the same word of p1Q only, so p2Q may be p1Q. *)
  Definition ModDownQPtoQNTT (il nl : modulus -> R -> R) (pp : rparams) (levelQ lP : nat) (p1Q p1P : list R) : res (list R * list R) :=
    let p1P := tab (S lP) (fun k => il (Pi pp k) (row p1P k)) in
    polypool <- colmap (S levelQ) (fun x => ModUp (Ps pp) (Qs pp) lP levelQ (col p1P x)) ;;
    md <- idx (genModDownParams (Qs pp) (Ps pp)) lP ;;
    let p2Q := tab (S levelQ) (fun i => let p3 := nl (Qi pp i) (row polypool i) in
                 mkR (fun j => md_out (mq (Qi pp i)) (co (row p1Q i) j) (co p3 j) (nth i md 0))) in
    Ok (p2Q, p1P).
End Model.

Lemma row_tab' {N} n (f : nat -> R N) i : (i < n)%nat -> row (tab n f) i = f i.
Proof. intros H. unfold row. apply nth_tab. exact H. Qed.

Section Proofs.
  Context {N : nat} (pp : rparams) (WF : wfp N pp).
  Notation R := (R N).
  Add Ring R_ring60 : (@R_ring_theory N).
  Variables (il nl : modulus -> R -> R) (level lP : nat).
  Hypothesis (IL : forall k, (k < length (Pm pp))%nat -> lazy_intt (Pi pp k) (il (Pi pp k))) (NL : forall i, (i < length (Qm pp))%nat -> lazy_ntt (Qi pp i) (nl (Qi pp i))).
  Hypothesis (HL : (level < length (Qm pp))%nat) (HP : (lP < length (Pm pp))%nat).

  Lemma okP k : (k < length (Pm pp))%nat -> okmod (N := N) (Pi pp k).
  Proof. intros Hk. apply (proj1 (Forall_forall _ _) (wf_okm _ _ WF)). apply in_or_app. right. apply nth_In. exact Hk. Qed.
  Notation D := (prodl (firstn (S lP) (Ps pp))).
  (** the words the division sees *)
  Definition lazyP (p1P : list R) : list R := tab (S lP) (fun k => il (Pi pp k) (row p1P k)).
  Definition remainder (rowsP : list R) : R := mkR (fun x => modup_int (firstn (S lP) (Ps pp)) (col rowsP x)).
  Lemma lazy_words p1P : (forall k, (k <= lP)%nat -> canon (Pi pp k) (row p1P k)) -> forall x, (x < N)%nat -> Forall (fun z => 0 <= z < W) (col (lazyP p1P) x).
  Proof using WF IL HP.
    clear NL HL. intros C x Hx. apply Forall_forall. intros z Hz. apply in_map_iff in Hz. destruct Hz as (r & <- & Hr). apply (In_nth _ _ R0) in Hr. destruct Hr as (k & Hk & <-).
    unfold lazyP in *. rewrite tab_length in Hk. rewrite nth_tab by exact Hk. destruct (IL k ltac:(lia) _ (C k ltac:(lia)) x Hx) as [B _]. destruct (okP k ltac:(lia)) as [_ K]. destruct K as [_ K]. unfold W. lia.
  Qed.
  (** the division: D times the result is the input minus the transform of the remainder *)
  Lemma div_ok p1Q p1P : (forall i j, (i <= level)%nat -> (j < N)%nat -> 0 <= co (row p1Q i) j < 2 * mq (Qi pp i)) -> (forall k, (k <= lP)%nat -> canon (Pi pp k) (row p1P k)) ->
    exists out, ModDownQPtoQNTT il nl pp level lP p1Q p1P = Ok (out, lazyP p1P) /\ length out = S level /\
      forall i j, (i <= level)%nat -> (j < N)%nat -> 0 <= co (row out i) j < mq (Qi pp i) /\ eqz (mq (Qi pp i)) (D * co (row out i) j) (co (row p1Q i) j - co (ntt (Qi pp i) (remainder (lazyP p1P))) j).
  Proof.
    intros BQ CP. unfold ModDownQPtoQNTT. fold (lazyP p1P). pose proof (wf_base _ _ WF) as OKB. pose proof OKB as [ND FO]. apply Forall_app in FO. destruct FO as [FQ FP].
    assert (LL : length (lazyP p1P) = S lP) by apply tab_length.
    destruct (colmap_ok (N := N) (S level) (fun x => ModUp (Ps pp) (Qs pp) lP level (col (lazyP p1P) x))
      (fun x o => forall i, (i <= level)%nat -> 0 <= nth i o 0 < 6 * mq (Qi pp i) /\ eqz (mq (Qi pp i)) (nth i o 0) (co (remainder (lazyP p1P)) x))) as (pool & E & LO & F).
    { intros x Hx. destruct (ModUp_ok (Ps pp) (Qs pp) lP level (col (lazyP p1P) x) (okbase_P pp WF) FQ) as (o & E & LO & O).
      - rewrite len_Ps. exact HP.
      - rewrite len_Qs. exact HL.
      - pose proof (wf_P32 _ _ WF). lia.
      - rewrite col_length. lia.
      - apply lazy_words; assumption.
      - exists o. split; [exact E|]. intros i Hi. specialize (O i Hi). rewrite nth_Qs in O by lia. rewrite (firstn_all2 (col _ _)) in O by (rewrite col_length; lia). unfold remainder. rewrite co_mkR by exact Hx. exact O. }
    rewrite E. cbn [rbind]. rewrite (idx_nth _ _ nil) by (unfold genModDownParams; rewrite gen_mod_down_len, len_Ps; exact HP). cbn [rbind].
    eexists. split; [reflexivity|]. split; [apply tab_length|]. intros i j Hi Hj. rewrite (row_tab' (S level)) by lia. cbv beta zeta. rewrite co_mkR by exact Hj.
    destruct (genModDownParams_ok (Qs pp) (Ps pp) lP i OKB ltac:(rewrite len_Ps; exact HP) ltac:(rewrite len_Qs; lia)) as (M1 & c & M2 & M3). rewrite nth_Qs in M1, M2, M3 by lia.
    pose proof (okQ pp WF i ltac:(lia)) as [OM K].
    assert (PB : forall x, (x < N)%nat -> 0 <= co (row pool i) x < 6 * mq (Qi pp i) /\ eqz (mq (Qi pp i)) (co (row pool i) x) (co (remainder (lazyP p1P)) x)) by (intros x Hx; destruct (F x Hx) as (o & _ & O & Y); rewrite Y by lia; apply O; exact Hi).
    destruct (NL i ltac:(lia) (row pool i) (fun x Hx => proj1 (PB x Hx)) j Hj) as [Y1 Y2].
    rewrite (ntt_eqm _ OM (row pool i) (remainder (lazyP p1P))) in Y2 by (apply eqm_co; intros x Hx; apply PB; exact Hx).
    destruct (md_out_ok (mq (Qi pp i)) (co (row p1Q i) j) (co (nl (Qi pp i) (row pool i)) j) _ c D K (BQ i j Hi Hj) ltac:(lia) M1 M2 M3) as [O1 O2].
    split; [exact O1|]. rewrite O2, Y2. reflexivity.
  Qed.
  Lemma D_cancel i x y : (i <= level)%nat -> eqz (mq (Qi pp i)) (D * x) (D * y) -> eqz (mq (Qi pp i)) x y.
  Proof using WF HL.
    clear IL NL HP. intros Hi. apply eqz_cancel. pose proof (wf_base _ _ WF) as [ND FO]. apply Forall_app in FO. destruct FO as [FQ FP]. rewrite <- (nth_Qs pp i) by lia.
    assert (K : okq (nth i (Qs pp) 0)) by (apply (proj1 (Forall_forall _ _) FQ); apply nth_In; rewrite len_Qs; lia).
    apply prodl_gcd; [|apply K|].
    - apply Forall_forall. intros p Hp. apply (proj1 (Forall_forall _ _) FP). apply firstn_incl in Hp. exact Hp.
    - intros I. apply firstn_incl in I. revert I. apply (NoDup_app_not_in (Qs pp) (Ps pp)); [exact ND|]. apply nth_In. rewrite len_Qs. lia.
  Qed.
  Lemma lazyP_mod p1P k x : (forall k, (k <= lP)%nat -> canon (Pi pp k) (row p1P k)) -> (k <= lP)%nat -> (x < N)%nat -> eqz (mq (Pi pp k)) (nth k (col (lazyP p1P) x) 0) (co (intt (Pi pp k) (row p1P k)) x).
  Proof using IL HP.
    clear NL HL. intros C Hk Hx. rewrite col_nth by (unfold lazyP; rewrite tab_length; lia). unfold lazyP, row at 1. rewrite nth_tab by lia. apply (IL k ltac:(lia) _ (C k Hk) x Hx).
  Qed.
End Proofs.

(** ** the result, for the transform of any integer polynomial X: the transform of the quotient of X by the product D of the special primes used, up to a remainder in [0, D) (exception 2^-40 of the basis conversion, C08);
    the first operand's P part now holds its inverse transform.  [il], [nl] are arbitrary functions meeting the contract of the lazy transforms. *)
Theorem C60_value : forall N pp (il nl : modulus -> R N -> R N) level lP (p1Q p1P : list (R N)) (X : R N),
  wfp N pp -> (forall k, (k < length (Pm pp))%nat -> lazy_intt (Pi pp k) (il (Pi pp k))) -> (forall i, (i < length (Qm pp))%nat -> lazy_ntt (Qi pp i) (nl (Qi pp i))) ->
  (level < length (Qm pp))%nat -> (lP < length (Pm pp))%nat ->
  (forall i j, (i <= level)%nat -> (j < N)%nat -> 0 <= co (row p1Q i) j < 2 * mq (Qi pp i) /\ (mq (Qi pp i) | co (row p1Q i) j - co (ntt (Qi pp i) X) j)) ->
  (forall k, (k <= lP)%nat -> row p1P k = ntt (Pi pp k) X) ->
  let D := product (firstn (S lP) (Ps pp)) in
  exists out p1P' (r : R N), ModDownQPtoQNTT il nl pp level lP p1Q p1P = Ok (out, p1P') /\ length out = S level /\
    (forall j, (j < N)%nat -> (D | co X j - co r j) /\ almost_reduced (co r j) D) /\
    (forall i, (i <= level)%nat -> row out i = ntt (Qi pp i) (mkR (fun j => (co X j - co r j) / D))) /\
    (forall k j, (k <= lP)%nat -> (j < N)%nat -> (mq (Pi pp k) | co (row p1P' k) j - co X j)).
Proof.
  intros N pp il nl level lP p1Q p1P X WF IL NL HL HP HQ HPr D.
  assert (CP : forall k, (k <= lP)%nat -> canon (Pi pp k) (row p1P k)). { intros k Hk. rewrite (HPr k Hk). intros j Hj. apply ntt_range; [apply (okP pp WF k ltac:(lia))|exact Hj]. }
  destruct (div_ok pp WF il nl level lP IL NL HL HP p1Q p1P (fun i j Hi Hj => proj1 (HQ i j Hi Hj)) CP) as (out & E & LO & HO).
  set (Rm := remainder pp lP (lazyP pp il lP p1P)) in *.
  assert (PX : forall k j, (k <= lP)%nat -> (j < N)%nat -> eqz (mq (Pi pp k)) (nth k (col (lazyP pp il lP p1P) j) 0) (co X j)).
  { intros k j Hk Hj. rewrite (lazyP_mod pp il lP IL HP p1P k j CP Hk Hj), (HPr k Hk). pose proof (okP (N := N) pp WF k ltac:(lia)) as [OM _]. apply (proj1 (eqm_co _ _ _) (intt_ntt _ OM X) j Hj). }
  assert (RM : forall j, (j < N)%nat -> (D | co X j - co Rm j) /\ almost_reduced (co Rm j) D).
  { intros j Hj. unfold Rm, remainder. rewrite co_mkR by exact Hj. unfold D. rewrite product_prodl.
    destruct (modup_int_x (firstn (S lP) (Ps pp)) (co X j) (col (lazyP pp il lP p1P) j)) as [C A].
    - apply okbase_firstn. apply (okbase_P pp WF).
    - rewrite firstn_length. pose proof (wf_P32 _ _ WF). lia.
    - split; [rewrite col_length, firstn_length, len_Ps; unfold lazyP; rewrite tab_length; lia|]. intros k Hk. rewrite firstn_length in Hk. rewrite nth_firstn by lia. rewrite nth_Ps by lia. split; [|apply PX; lia].
      apply (proj1 (Forall_forall _ _) (lazy_words pp WF il lP IL HP p1P CP j Hj)). apply nth_In. rewrite col_length. unfold lazyP. rewrite tab_length. lia.
    - split; [|exact A]. destruct C as [z Hz]. exists (- z). lia. }
  exists out, (lazyP pp il lP p1P), Rm. split; [exact E|]. split; [exact LO|]. split; [exact RM|]. split.
  - intros i Hi. pose proof (okQ pp WF i ltac:(lia)) as [OM K]. set (q := mkR (fun j => (co X j - co Rm j) / D) : R N). pose proof (okq_lt _ K) as QL.
    assert (XR : X = add Rm (smul D q)). { apply R_ext. intros j Hj. rewrite co_add, co_smul. unfold q. rewrite co_mkR by exact Hj. destruct (RM j Hj) as [[z Hz] _]. rewrite Hz. destruct (Z.eq_dec D 0) as [D0|D0]; [rewrite D0 in *; lia|]. rewrite Z.div_mul by exact D0. lia. }
    apply R_ext. intros j Hj. destruct (HO i j Hi Hj) as [O1 O2]. pose proof (ntt_range (Qi pp i) OM q j Hj) as O3.
    assert (EQ : eqz (mq (Qi pp i)) (co (row out i) j) (co (ntt (Qi pp i) q) j)).
    { apply (D_cancel pp WF level lP HL i _ _ Hi). rewrite O2. destruct (HQ i j Hi Hj) as [_ HX]. fold (eqz (mq (Qi pp i)) (co (row p1Q i) j) (co (ntt (Qi pp i) X) j)) in HX. rewrite HX.
      pose proof (proj1 (eqm_co _ _ _) (ntt_add (Qi pp i) OM Rm (smul D q)) j Hj) as AD. rewrite co_add, <- XR in AD. fold (eqz (mq (Qi pp i)) (co (ntt (Qi pp i) X) j) (co (ntt (Qi pp i) Rm) j + co (ntt (Qi pp i) (smul D q)) j)) in AD. rewrite AD.
      assert (SM : eqz (mq (Qi pp i)) (co (ntt (Qi pp i) (smul D q)) j) (D * co (ntt (Qi pp i) q) j)).
      { rewrite !ntt_co by assumption. unfold ev. apply eqz_eq. rewrite <- sum_mul_l. apply sum_ext. intros t Ht. rewrite co_smul. ring. }
      rewrite SM. unfold D. rewrite product_prodl. apply eqz_eq. ring. }
    apply eqz_iff in EQ; [|lia]. rewrite !Z.mod_small in EQ by lia. exact EQ.
  - intros k j Hk Hj. rewrite <- col_nth by (unfold lazyP; rewrite tab_length; lia). apply PX; assumption.
Qed.
Print Assumptions C60_value.

(** ** the same as leaving the NTT domain, dividing with ModDownQPtoQ (C09) and transforming back *)
Lemma ntt_scal {N} m (D : Z) (q : R N) j : okm (N := N) m -> (j < N)%nat -> eqz (mq m) (co (ntt m (smul D q)) j) (D * co (ntt m q) j).
Proof. intros OM Hj. rewrite !ntt_co by assumption. unfold ev. apply eqz_eq. rewrite <- sum_mul_l. apply sum_ext. intros t Ht. rewrite co_smul. ring. Qed.
Theorem C60_same : forall N pp (il nl : modulus -> R N -> R N) level lP (p1Q p1P : list (R N)),
  wfp N pp -> (forall k, (k < length (Pm pp))%nat -> lazy_intt (Pi pp k) (il (Pi pp k))) -> (forall i, (i < length (Qm pp))%nat -> lazy_ntt (Qi pp i) (nl (Qi pp i))) ->
  (level < length (Qm pp))%nat -> (lP < length (Pm pp))%nat -> (forall i, (i <= level)%nat -> canon (Qi pp i) (row p1Q i)) -> (forall k, (k <= lP)%nat -> canon (Pi pp k) (row p1P k)) ->
  let cQ := tab (S level) (fun i => intt (Qi pp i) (row p1Q i)) in let cP := tab (S lP) (fun k => intt (Pi pp k) (row p1P k)) in
  exists out p1P', colmap (S level) (fun x => ModDownQPtoQ (Qs pp) (Ps pp) level lP (col cQ x) (col cP x)) = Ok out /\
    ModDownQPtoQNTT il nl pp level lP p1Q p1P = Ok (tab (S level) (fun i => ntt (Qi pp i) (row out i)), p1P').
Proof.
  intros N pp il nl level lP p1Q p1P WF IL NL HL HP CQ CP cQ cP.
  destruct (div_ok pp WF il nl level lP IL NL HL HP p1Q p1P) as (out & E & LO & HO); [intros i j Hi Hj; specialize (CQ i Hi j Hj); lia|exact CP|].
  pose proof (wf_base _ _ WF) as OKB.
  assert (LQ : length cQ = S level) by apply tab_length. assert (LP : length cP = S lP) by apply tab_length.
  assert (FW : forall x, (x < N)%nat -> Forall (fun z => 0 <= z < W) (col cP x)).
  { intros x Hx. apply Forall_forall. intros z Hz. apply in_map_iff in Hz. destruct Hz as (r & <- & Hr). apply (In_nth _ _ R0) in Hr. destruct Hr as (k & Hk & <-). rewrite LP in Hk. unfold cP. rewrite nth_tab by exact Hk.
    pose proof (okP (N := N) pp WF k ltac:(lia)) as [OM K]. pose proof (intt_range _ OM (row p1P k) x Hx). destruct K as [_ K]. unfold W. lia. }
  set (Rm := remainder pp lP (lazyP pp il lP p1P)) in *.
  assert (RM : forall x, (x < N)%nat -> modup_int (firstn (S lP) (Ps pp)) (firstn (S lP) (col cP x)) = co Rm x).
  { intros x Hx. unfold Rm, remainder. rewrite co_mkR by exact Hx. rewrite (firstn_all2 (col cP x)) by (rewrite col_length; lia). unfold modup_int.
    assert (LF : length (firstn (S lP) (Ps pp)) = S lP) by (apply firstn_length'; rewrite len_Ps; lia).
    rewrite (recon_lazy (firstn (S lP) (Ps pp)) nil (col cP x) (col (lazyP pp il lP p1P) x)); trivial.
    - apply okbase_firstn. apply (okbase_P pp WF).
    - rewrite LF, col_length. exact LP.
    - rewrite LF, col_length. unfold lazyP. apply tab_length.
    - apply FW. exact Hx.
    - apply (lazy_words pp WF il lP IL HP p1P CP x Hx).
    - intros k Hk. rewrite LF in Hk. rewrite nth_firstn by lia. rewrite nth_Ps by lia. rewrite (lazyP_mod pp il lP IL HP p1P k x CP ltac:(lia) Hx). rewrite col_nth by lia. unfold cP. rewrite row_tab' by lia. reflexivity. }
  destruct (colmap_ok (N := N) (S level) (fun x => ModDownQPtoQ (Qs pp) (Ps pp) level lP (col cQ x) (col cP x))
    (fun x o => forall i, (i <= level)%nat -> eqz (mq (Qi pp i)) (prodl (firstn (S lP) (Ps pp)) * nth i o 0) (co (intt (Qi pp i) (row p1Q i)) x - co Rm x))) as (o & Eo & Lo & Fo).
  { intros x Hx. destruct (ModDownQPtoQ_ok (Qs pp) (Ps pp) level lP (col cQ x) (col cP x) OKB) as (o & Eo & Lo & Oo).
    - rewrite len_Qs. exact HL.
    - rewrite len_Ps. exact HP.
    - pose proof (wf_P32 _ _ WF). lia.
    - rewrite col_length. lia.
    - apply FW. exact Hx.
    - intros i Hi. rewrite col_nth by lia. rewrite nth_Qs by lia. unfold cQ. rewrite row_tab' by lia. pose proof (okQ (N := N) pp WF i ltac:(lia)) as [OM K]. pose proof (intt_range _ OM (row p1Q i) x Hx). lia.
    - exists o. split; [exact Eo|]. intros i Hi. destruct (Oo i Hi) as [_ O2]. rewrite nth_Qs in O2 by lia. rewrite col_nth in O2 by lia. unfold cQ in O2. rewrite row_tab' in O2 by lia. rewrite (RM x Hx) in O2. exact O2. }
  exists o, (lazyP pp il lP p1P). split; [exact Eo|]. rewrite E. f_equal. f_equal. apply (nth_ext _ _ R0 R0); [rewrite tab_length; exact LO|]. intros i Hi. rewrite LO in Hi. rewrite nth_tab by exact Hi. fold (row out i).
  pose proof (okQ (N := N) pp WF i ltac:(lia)) as [OM K]. pose proof (okq_lt _ K) as QL. apply R_ext. intros j Hj. destruct (HO i j ltac:(lia) Hj) as [O1 O2]. pose proof (ntt_range (Qi pp i) OM (row o i) j Hj) as O3.
  assert (EQ : eqz (mq (Qi pp i)) (co (row out i) j) (co (ntt (Qi pp i) (row o i)) j)).
  { apply (D_cancel pp WF level lP HL i _ _ ltac:(lia)). rewrite O2. rewrite <- (ntt_scal (Qi pp i) (prodl (firstn (S lP) (Ps pp))) (row o i) j OM Hj).
    rewrite (ntt_eqm (Qi pp i) OM (smul (prodl (firstn (S lP) (Ps pp))) (row o i)) (add (intt (Qi pp i) (row p1Q i)) (smul (-1) Rm))).
    - pose proof (proj1 (eqm_co _ _ _) (ntt_add (Qi pp i) OM (intt (Qi pp i) (row p1Q i)) (smul (-1) Rm)) j Hj) as AD. rewrite co_add in AD.
      fold (eqz (mq (Qi pp i)) (co (ntt (Qi pp i) (add (intt (Qi pp i) (row p1Q i)) (smul (-1) Rm))) j) (co (ntt (Qi pp i) (intt (Qi pp i) (row p1Q i))) j + co (ntt (Qi pp i) (smul (-1) Rm)) j)) in AD. rewrite AD.
      rewrite (ntt_scal (Qi pp i) (-1) Rm j OM Hj). pose proof (proj1 (eqm_co _ _ _) (ntt_intt (Qi pp i) OM (row p1Q i)) j Hj) as NI. fold (eqz (mq (Qi pp i)) (co (ntt (Qi pp i) (intt (Qi pp i) (row p1Q i))) j) (co (row p1Q i) j)) in NI. rewrite NI. apply eqz_eq. ring.
    - apply eqm_co. intros x Hx. rewrite co_add, !co_smul. destruct (Fo x Hx) as (ox & _ & Ox & Y). rewrite Y by lia. specialize (Ox i ltac:(lia)). fold (eqz (mq (Qi pp i)) (prodl (firstn (S lP) (Ps pp)) * nth i ox 0) (co (intt (Qi pp i) (row p1Q i)) x + -1 * co Rm x)). rewrite Ox. apply eqz_eq. ring. }
  apply eqz_iff in EQ; [|lia]. rewrite !Z.mod_small in EQ by lia. exact EQ.
Qed.
Print Assumptions C60_same.

(** ** non-vacuity: the reduced transforms meet the contract, and so do transforms that leave a + q for a; the transform of every polynomial is an input *)
Theorem C60_nonvacuous : forall N pp (X : R N) lP, wfp N pp -> (lP < length (Pm pp))%nat ->
  let late (f : modulus -> R N -> R N) m a := mkR (fun j => co (f m a) j + mq m) : R N in
  (forall k, (k < length (Pm pp))%nat -> lazy_intt (Pi pp k) (intt (Pi pp k) : R N -> R N) /\ lazy_intt (Pi pp k) (late intt (Pi pp k))) /\
  (forall i, (i < length (Qm pp))%nat -> lazy_ntt (Qi pp i) (ntt (Qi pp i) : R N -> R N) /\ lazy_ntt (Qi pp i) (late ntt (Qi pp i))) /\
  exists (p1Q p1P : list (R N)), (forall i j, (i <= maxLevel pp)%nat -> (j < N)%nat -> 0 <= co (row p1Q i) j < 2 * mq (Qi pp i) /\ (mq (Qi pp i) | co (row p1Q i) j - co (ntt (Qi pp i) X) j)) /\
    (forall k, (k <= lP)%nat -> row p1P k = ntt (Pi pp k) X).
Proof.
  intros N pp X lP WF HP late. pose proof (wf_Qpos _ _ WF) as QP. unfold maxLevel.
  assert (S1 : forall m (a : R N) j, (j < N)%nat -> okm (N := N) m -> 0 <= co (intt m a) j < 2 * mq m /\ 0 <= co (late intt m a) j < 2 * mq m /\ eqz (mq m) (co (late intt m a) j) (co (intt m a) j)).
  { intros m a j Hj OM. unfold late. rewrite co_mkR by exact Hj. pose proof (intt_range m OM a j Hj). repeat split; try lia. exists 1. ring. }
  assert (S2 : forall m (a : R N) j, (j < N)%nat -> okm (N := N) m -> 0 <= co (ntt m a) j < 2 * mq m /\ 0 <= co (late ntt m a) j < 2 * mq m /\ eqz (mq m) (co (late ntt m a) j) (co (ntt m a) j)).
  { intros m a j Hj OM. unfold late. rewrite co_mkR by exact Hj. pose proof (ntt_range m OM a j Hj). repeat split; try lia. exists 1. ring. }
  split; [|split].
  - intros k Hk. pose proof (okP (N := N) pp WF k Hk) as [OM _]. split; intros a _ j Hj; destruct (S1 (Pi pp k) a j Hj OM) as (A & B & C); (split; [assumption|]); [apply eqz_eq; reflexivity|exact C].
  - intros i Hi. pose proof (okQ (N := N) pp WF i Hi) as [OM _]. split; intros a _ j Hj; destruct (S2 (Qi pp i) a j Hj OM) as (A & B & C); (split; [assumption|]); [apply eqz_eq; reflexivity|exact C].
  - exists (tab (length (Qm pp)) (fun i => ntt (Qi pp i) X)), (tab (S lP) (fun k => ntt (Pi pp k) X)). split; [|intros k Hk; rewrite row_tab' by lia; reflexivity].
    intros i j Hi Hj. rewrite row_tab' by lia. pose proof (okQ (N := N) pp WF i ltac:(lia)) as [OM _]. destruct (S2 (Qi pp i) X j Hj OM) as (A & _). split; [exact A|]. rewrite Z.sub_diag. apply Z.divide_0_r.
Qed.
Print Assumptions C60_nonvacuous.
