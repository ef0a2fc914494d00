(** BFV base conversions (C39): ModUpQtoR, Rescale, Quantize on whole polynomials. *)
From Verif Require Import Base IdSetModel KeySetModel NumTheory Negacyclic Ntt Word FloatModel BasisExt BasisExtProofs DecompProofs BasisSpec Rows RlweModel SchemeSpec ExtProd ExtProps KeyGenModel Galois KeyGenProofs CtModel KeySwitchModel BfvModel BfvMulModel.
From Coq Require Import Znumtheory Setoid Morphisms.
Open Scope Z_scope.

(** parameters NewParametersFromLiteral accepts: distinct primes for Q, QMul and P, chains Q and QMul of the same length *)
Record wfb (N : nat) (b : bparams) : Prop := {
  wb_R : wfp N (ppR b);
  wb_len : length (bQ b) = length (bM b);
  wb_32 : (0 < length (bQ b) <= 32)%nat;
  wb_t : 0 < bT b < 2 ^ 61 }.

(** every coefficient is in [0, D), up to the 2^-40 exception of the base conversion *)
Definition nearly {N} (a : R N) (D : Z) : Prop := forall x, (x < N)%nat -> almost_reduced (co a x) D.
Lemma nearly_bnd {N} (a : R N) D : nearly a D -> bnd a (slack D).
Proof. intros H x Hx. apply slack_ok. apply H. assumption. Qed.

Section Conv.
  Context {N : nat} (b : bparams) (WB : wfb N b).
  Notation R := (R N).
  Notation n := (length (bQ b)).
  Add Ring R_ring40 : (@R_ring_theory N).

  Lemma Ms_len : length (Ms b) = n.
  Proof. unfold Ms. rewrite map_length. symmetry. apply (wb_len _ _ WB). Qed.
  Lemma Qs_len : length (Qs (ppQ b)) = n.
  Proof. apply map_length. Qed.
  Lemma Rs_eq : Qs (ppR b) = Qs (ppQ b) ++ Ms b.
  Proof. unfold Qs, Ms. cbn [ppR ppQ Qm]. apply map_app. Qed.
  Lemma base_QM : okbase (Qs (ppQ b) ++ Ms b).
  Proof. rewrite <- Rs_eq. exact (okbase_Q (ppR b) (wb_R _ _ WB)). Qed.
  Lemma base_Q : okbase (Qs (ppQ b)).
  Proof. destruct base_QM as [ND F]. apply Forall_app in F. split; [apply NoDup_app_remove_r in ND; assumption|apply F]. Qed.
  Lemma base_M : okbase (Ms b).
  Proof. destruct base_QM as [ND F]. apply Forall_app in F. split; [apply NoDup_app_remove_l in ND; assumption|apply F]. Qed.
  Lemma NoDup_drop_mid {A} (l m r : list A) : NoDup ((l ++ m) ++ r) -> NoDup (l ++ r).
  Proof.
    intros H. apply (Permutation_NoDup (l' := m ++ l ++ r)) in H; [apply NoDup_app_remove_l in H; assumption|].
    rewrite <- app_assoc, !app_assoc. apply Permutation_app_tail. apply Permutation_app_comm.
  Qed.
  Lemma wf_ppQ : wfp N (ppQ b).
  Proof.
    pose proof (wb_R _ _ WB) as W0. pose proof (wb_32 _ _ WB). destruct W0 as [W1 W2 W3 W4 W5 W6 W7 W8 W9]. constructor; trivial.
    - rewrite Rs_eq in W1. destruct W1 as [ND F]. split; [apply (NoDup_drop_mid _ _ _ ND)|]. rewrite !Forall_app in F. apply Forall_app. split; apply F.
    - cbn [ppR ppQ Qm Pm] in *. rewrite !Forall_app in W2. apply Forall_app. split; apply W2.
    - cbn [ppR ppQ Qm Pm] in *. lia.
    - cbn [ppR ppQ Qm Pm] in *. lia.
  Qed.
  Lemma qprod_pos : 0 < qprod b.
  Proof. apply prodl_pos. intros p Hp. apply (proj1 (Forall_forall _ _) (proj2 base_Q)) in Hp. apply okq_lt in Hp. lia. Qed.
  Lemma mprod_pos : 0 < mprod b.
  Proof. apply prodl_pos. intros p Hp. apply (proj1 (Forall_forall _ _) (proj2 base_M)) in Hp. apply okq_lt in Hp. lia. Qed.

  (** moduli of R: first the moduli of Q, then those of QMul *)
  Lemma Qi_R j : (j < n)%nat -> Qi (ppR b) j = Qi (ppQ b) j.
  Proof. intros H. unfold Qi. cbn [ppR ppQ Qm]. apply app_nth1. assumption. Qed.
  Lemma Mi_R k : Qi (ppR b) (n + k) = Mi b k.
  Proof. unfold Qi, Mi. cbn [ppR Qm]. rewrite app_nth2 by lia. f_equal. lia. Qed.
  Lemma nth_M k : (k < n)%nat -> nth k (Ms b) 0 = mq (Mi b k).
  Proof. intros H. unfold Ms, Mi. rewrite (nth_map' _ _ _ dmod); [reflexivity|]. rewrite <- (wb_len _ _ WB). assumption. Qed.
  Lemma nth_Q j : (j < n)%nat -> nth j (Qs (ppQ b)) 0 = mq (Qi (ppQ b) j).
  Proof. intros H. apply nth_Qs. exact H. Qed.
  Lemma okR j : (j < n + n)%nat -> okmod (N := N) (Qi (ppR b) j).
  Proof.
    intros H. pose proof (wb_R _ _ WB) as WR. apply (okmod_md (ppR b) WR j (MQ j)); [|cbn; lia].
    cbn [ppR Qm]. rewrite app_length, <- (wb_len _ _ WB). exact H.
  Qed.
  Lemma okQ' j : (j < n)%nat -> okmod (N := N) (Qi (ppQ b) j).
  Proof. intros H. rewrite <- Qi_R by assumption. apply okR. lia. Qed.
  Lemma okM k : (k < n)%nat -> okmod (N := N) (Mi b k).
  Proof. intros H. rewrite <- Mi_R. apply okR. lia. Qed.
  Lemma FQ : Forall okq (Qs (ppQ b)). Proof. apply base_Q. Qed.
  Lemma FM : Forall okq (Ms b). Proof. apply base_M. Qed.
  Lemma q_M_coprime j : (j < n)%nat -> Z.gcd (mprod b) (mq (Qi (ppQ b) j)) = 1.
  Proof.
    intros H. destruct (okQ' j H) as [_ [Pq _]]. apply prime_gcd; [assumption|]. apply prime_divide_prodl; [assumption|..].
    - intros p Hp. apply (proj1 (Forall_forall _ _) FM) in Hp. apply Hp.
    - destruct base_QM as [ND _]. assert (J : In (mq (Qi (ppQ b) j)) (Qs (ppQ b))) by (rewrite <- nth_Q by assumption; apply nth_In; rewrite Qs_len; assumption).
      revert J ND. generalize (Qs (ppQ b)) (Ms b) (mq (Qi (ppQ b) j)). clear. induction l as [|a l IH]; intros l0 z J ND I; [destruct J|].
      cbn in ND. inversion ND; subst. destruct J as [->|J]; [apply H1; apply in_or_app; right; assumption|]. apply (IH l0 z); assumption.
  Qed.
  Lemma M_q_coprime k : (k < n)%nat -> Z.gcd (qprod b) (mq (Mi b k)) = 1.
  Proof.
    intros H. destruct (okM k H) as [_ [Pq _]]. apply prime_gcd; [assumption|]. apply prime_divide_prodl; [assumption|..].
    - intros p Hp. apply (proj1 (Forall_forall _ _) FQ) in Hp. apply Hp.
    - destruct base_QM as [ND _]. assert (J : In (mq (Mi b k)) (Ms b)) by (rewrite <- nth_M by assumption; apply nth_In; rewrite Ms_len; assumption).
      revert J ND. generalize (Qs (ppQ b)) (Ms b) (mq (Mi b k)). clear. induction l as [|a l IH]; intros l0 z J ND I; [destruct I|].
      cbn in ND. inversion ND; subst. destruct I as [->|I]; [apply H1; apply in_or_app; right; assumption|]. apply (IH l0 z); assumption.
  Qed.
  (** congruence modulo every modulus of a chain is congruence modulo the product *)
  Lemma eqm_qprod (x y : R) : (forall j, (j < n)%nat -> eqm (mq (Qi (ppQ b) j)) x y) -> eqm (qprod b) x y.
  Proof.
    intros H. apply eqm_co. intros i Hi. apply divide_prodl; [apply base_Q| |].
    - intros p Hp. apply (proj1 (Forall_forall _ _) FQ) in Hp. apply Hp.
    - intros p Hp. apply (In_nth _ _ 0) in Hp. destruct Hp as (j & Hj & <-). rewrite Qs_len in Hj. rewrite nth_Q by assumption. apply (proj1 (eqm_co _ _ _) (H j Hj) i Hi).
  Qed.
  Lemma eqm_mprod (x y : R) : (forall k, (k < n)%nat -> eqm (mq (Mi b k)) x y) -> eqm (mprod b) x y.
  Proof.
    intros H. apply eqm_co. intros i Hi. apply divide_prodl; [apply base_M| |].
    - intros p Hp. apply (proj1 (Forall_forall _ _) FM) in Hp. apply Hp.
    - intros p Hp. apply (In_nth _ _ 0) in Hp. destruct Hp as (j & Hj & <-). rewrite Ms_len in Hj. rewrite nth_M by assumption. apply (proj1 (eqm_co _ _ _) (H j Hj) i Hi).
  Qed.
  Lemma qprod_div j : (j < n)%nat -> (mq (Qi (ppQ b) j) | qprod b).
  Proof. intros H. rewrite <- nth_Q by assumption. apply in_divide_prodl. apply nth_In. rewrite Qs_len. assumption. Qed.
  Lemma mprod_div k : (k < n)%nat -> (mq (Mi b k) | mprod b).
  Proof. intros H. rewrite <- nth_M by assumption. apply in_divide_prodl. apply nth_In. rewrite Ms_len. assumption. Qed.

  Lemma col_words (rows : list R) x : (forall j, (j < length rows)%nat -> wrd (row rows j)) -> (x < N)%nat -> Forall (fun z => 0 <= z < W) (col rows x).
  Proof.
    intros H Hx. apply Forall_forall. intros z Hz. apply in_map_iff in Hz. destruct Hz as (r & <- & Hr). apply (In_nth _ _ R0) in Hr. destruct Hr as (k & Hk & <-). apply H; assumption.
  Qed.
  Lemma col_firstn (rows : list R) m x : col (firstn m rows) x = firstn m (col rows x).
  Proof. unfold col. rewrite firstn_map. reflexivity. Qed.
  Lemma n1 : S (n - 1) = n. Proof. pose proof (wb_32 _ _ WB). lia. Qed.

  (** one integer polynomial behind the rows of one chain *)
  Lemma lift_Q (rows : list R) : length rows = n -> (forall j, (j < n)%nat -> wrd (row rows j)) ->
    let X := mkR (fun x => modup_int (Qs (ppQ b)) (col rows x)) : R in
    nearly X (qprod b) /\ forall j, (j < n)%nat -> eqm (mq (Qi (ppQ b) j)) (row rows j) X.
  Proof.
    intros LR H X. pose proof (wb_32 _ _ WB).
    assert (A : forall x, (x < N)%nat -> _) by (intros x Hx; exact (modup_int_ok (Qs (ppQ b)) (col rows x) base_Q ltac:(rewrite Qs_len; lia) ltac:(rewrite col_length, Qs_len; assumption) (col_words rows x ltac:(rewrite LR; assumption) Hx))).
    split.
    - intros x Hx. unfold X. rewrite co_mkR by assumption. apply A. assumption.
    - intros j Hj. apply eqm_co. intros x Hx. unfold X. rewrite co_mkR by assumption. destruct (A x Hx) as [B _]. specialize (B j). rewrite Qs_len, nth_Q, col_nth in B by lia.
      destruct (B Hj) as [z Hz]. exists (- z). lia.
  Qed.
  Lemma lift_M (rows : list R) : length rows = n -> (forall j, (j < n)%nat -> wrd (row rows j)) ->
    let X := mkR (fun x => modup_int (Ms b) (col rows x)) : R in
    nearly X (mprod b) /\ forall j, (j < n)%nat -> eqm (mq (Mi b j)) (row rows j) X.
  Proof.
    intros LR H X. pose proof (wb_32 _ _ WB).
    assert (A : forall x, (x < N)%nat -> _) by (intros x Hx; exact (modup_int_ok (Ms b) (col rows x) base_M ltac:(rewrite Ms_len; lia) ltac:(rewrite col_length, Ms_len; assumption) (col_words rows x ltac:(rewrite LR; assumption) Hx))).
    split.
    - intros x Hx. unfold X. rewrite co_mkR by assumption. apply A. assumption.
    - intros j Hj. apply eqm_co. intros x Hx. unfold X. rewrite co_mkR by assumption. destruct (A x Hx) as [B _]. specialize (B j). rewrite Ms_len, nth_M, col_nth in B by lia.
      destruct (B Hj) as [z Hz]. exists (- z). lia.
  Qed.

  (** rows of R: machine words below 6 q standing for one integer polynomial *)
  Definition rowsR (rows : list R) (X : R) : Prop :=
    length rows = (n + n)%nat /\
    forall j, (j < n + n)%nat -> (forall x, (x < N)%nat -> 0 <= co (row rows j) x < 6 * mq (Qi (ppR b) j)) /\ eqm (mq (Qi (ppR b) j)) (row rows j) X.

  Lemma rowsR_app (r1 r2 : list R) X : length r1 = n -> length r2 = n ->
    (forall j, (j < n)%nat -> (forall x, (x < N)%nat -> 0 <= co (row r1 j) x < 6 * mq (Qi (ppQ b) j)) /\ eqm (mq (Qi (ppQ b) j)) (row r1 j) X) ->
    (forall k, (k < n)%nat -> (forall x, (x < N)%nat -> 0 <= co (row r2 k) x < 6 * mq (Mi b k)) /\ eqm (mq (Mi b k)) (row r2 k) X) -> rowsR (r1 ++ r2) X.
  Proof.
    intros L1 L2 H1 H2. split; [rewrite app_length; lia|]. intros j Hj. destruct (Nat.ltb_spec j n) as [C|C].
    - rewrite Qi_R by assumption. unfold row. rewrite app_nth1 by lia. apply H1. assumption.
    - replace (Qi (ppR b) j) with (Mi b (j - n)) by (rewrite <- Mi_R; f_equal; lia). unfold row. rewrite app_nth2 by lia. rewrite L1. apply H2. lia.
  Qed.

  Theorem ModUpQtoR_ok (pQ : list R) : (n <= length pQ)%nat -> (forall j, (j < n)%nat -> inr (Qi (ppQ b) j) (row pQ j)) ->
    exists out X, ModUpQtoR b pQ = Ok out /\ rowsR out X /\ nearly X (qprod b) /\ forall j, (j < n)%nat -> row out j = row pQ j.
  Proof.
    intros LP H. pose proof (wb_32 _ _ WB) as B32. unfold ModUpQtoR. destruct (Nat.ltb_spec (length pQ) n) as [C|_]; [lia|].
    set (p := firstn n pQ). assert (Lp : length p = n) by (unfold p; rewrite firstn_length; lia).
    assert (Rp : forall j, (j < n)%nat -> row p j = row pQ j) by (intros j Hj; unfold row, p; apply nth_firstn; assumption).
    assert (Wp : forall j, (j < n)%nat -> wrd (row p j)) by (intros j Hj; rewrite Rp by assumption; apply (inr_wrd (Qi (ppQ b) j)); [apply okQ'; assumption|apply H; assumption]).
    destruct (lift_Q p Lp Wp) as [X1 X2]. set (X := mkR (fun x => modup_int (Qs (ppQ b)) (col p x)) : R) in *.
    destruct (colmap_ok (N := N) n (fun x => ModUp (Qs (ppQ b)) (Ms b) (n - 1) (n - 1) (col pQ x))
      (fun x o => forall k, (k < n)%nat -> 0 <= nth k o 0 < 6 * mq (Mi b k) /\ eqz (mq (Mi b k)) (nth k o 0) (co X x))) as (pm & E & LM & F).
    { intros x Hx.
      assert (MU : ModUp (Qs (ppQ b)) (Ms b) (n - 1) (n - 1) (col pQ x) = ModUp (Qs (ppQ b)) (Ms b) (n - 1) (n - 1) (col p x)).
      { unfold ModUp. rewrite n1. unfold p. rewrite col_firstn, firstn_firstn, Nat.min_id. reflexivity. }
      rewrite MU.
      destruct (ModUp_ok (Qs (ppQ b)) (Ms b) (n - 1) (n - 1) (col p x) base_Q FM) as (o & E & LO & O); rewrite ?Qs_len, ?Ms_len, ?col_length, ?n1; try lia.
      { apply col_words; [rewrite Lp; assumption|assumption]. }
      exists o. split; [exact E|]. intros k Hk. cbv zeta in O. rewrite n1, !firstn_all2 in O by (rewrite ?Qs_len, ?col_length; lia).
      specialize (O k ltac:(lia)). rewrite nth_M in O by assumption. unfold X. rewrite co_mkR by assumption. exact O. }
    rewrite E. cbn [rbind]. exists (p ++ pm), X. split; [reflexivity|]. split; [|split].
    - apply rowsR_app; trivial.
      + intros j Hj. split; [|apply X2; assumption]. intros x Hx. rewrite Rp by assumption. specialize (H j Hj x Hx). pose proof (okq_lt _ (proj2 (okQ' j Hj))). lia.
      + intros k Hk. split.
        * intros x Hx. destruct (F x Hx) as (o & _ & O & Y). rewrite Y by assumption. apply O. assumption.
        * apply eqm_co. intros x Hx. destruct (F x Hx) as (o & _ & O & Y). rewrite Y by assumption. apply O. assumption.
    - exact X1.
    - intros j Hj. rewrite <- Rp by assumption. unfold row. apply app_nth1. lia.
  Qed.

  Lemma r_scal_row m z (a : R) : okq (mq m) -> wrd a -> canon m (r_scal m z a) /\ eqm (mq m) (r_scal m z a) (smul z a).
  Proof.
    intros O A. pose proof (okq_lt _ O) as QL. set (c := mform (z mod mq m) (mq m) (bred_params (mq m))).
    destruct (mform_mont (z mod mq m) (mq m) O) as [C1 C2]; [pose proof (Z.mod_pos_bound z (mq m) ltac:(lia)); lia|]. fold c in C1, C2.
    assert (E : forall i, (i < N)%nat -> 0 <= co (r_scal m z a) i < mq m /\ eqz (mq m) (co (r_scal m z a) i) (z * co a i)).
    { intros i Hi. unfold r_scal. fold c. rewrite co_mkR by assumption. specialize (A i Hi).
      destruct (mred_mont (co a i) c z (mq m) O) as [M1 M2]; trivial.
      - rewrite C2. apply eqz_mul; [apply eqz_mod|reflexivity].
      - split; [assumption|]. rewrite M2. apply eqz_eq. ring. }
    split; [intros i Hi; apply E; assumption|]. apply eqm_co. intros i Hi. rewrite co_smul. apply E. assumption.
  Qed.
  Lemma rep_scal m z (a x : R) : okmod (N := N) m -> wrd a -> rep m a x -> rep m (r_scal m z a) (smul z x).
  Proof.
    intros K A X. destruct K as [K O]. unfold rep in *. rewrite (intt_eqm m K _ (smul z a)) by (apply r_scal_row; assumption).
    rewrite (intt_smul m K), X. reflexivity.
  Qed.
  Lemma eqm0_smul D (a : R) : eqm D a R0 -> exists c, a = smul D c.
  Proof. intros [c H]. exists c. rewrite H, smul_cst. ring. Qed.

  (** the product by QMul of Rescale *)
  Lemma mFormM_row j (a : R) : (j < n)%nat -> wrd a ->
    let r := r_mont (Qi (ppQ b) j) a (mFormM b (Qi (ppQ b) j)) in canon (Qi (ppQ b) j) r /\ eqm (mq (Qi (ppQ b) j)) r (smul (mprod b) a).
  Proof.
    intros Hj A r. destruct (okQ' j Hj) as [K O]. pose proof (okq_lt _ O) as QL. set (q := mq (Qi (ppQ b) j)) in *.
    pose proof (Z.mod_pos_bound (mprod b) q ltac:(lia)) as MB.
    assert (C : 0 <= cred (w64 (0 + mprod b mod q)) q < q /\ eqz q (cred (w64 (0 + mprod b mod q)) q) (mprod b)).
    { destruct (cred_ok (w64 (0 + mprod b mod q)) q) as [C1 C2].
      - unfold w64. rewrite Z.mod_small by lia. lia.
      - split; [assumption|]. rewrite C2. unfold w64. rewrite Z.mod_small by lia. apply eqz_mod. }
    destruct C as [C1 C2].
    destruct (mform_mont (cred (w64 (0 + mprod b mod q)) q) q O ltac:(lia)) as [D1 D2].
    assert (E : forall i, (i < N)%nat -> 0 <= co r i < q /\ eqz q (co r i) (mprod b * co a i)).
    { intros i Hi. unfold r, r_mont, mFormM, r_mform. rewrite !co_mkR by assumption. fold q. specialize (A i Hi).
      destruct (mred_mont (co a i) (mform (cred (w64 (0 + mprod b mod q)) q) q (bred_params q)) (mprod b) q O) as [M1 M2]; trivial.
      - rewrite D2. apply eqz_mul; [exact C2|reflexivity].
      - split; [assumption|]. rewrite M2. apply eqz_eq. ring. }
    split; [intros i Hi; apply E; assumption|]. apply eqm_co. intros i Hi. rewrite co_smul. apply E. assumption.
  Qed.

  Theorem Rescale_ok (pQ : list R) : (n <= length pQ)%nat -> (forall j, (j < n)%nat -> inr (Qi (ppQ b) j) (row pQ j)) ->
    exists out X Y Rm, Rescale b pQ = Ok out /\ rowsR out Y /\ (forall j, (j < n)%nat -> eqm (mq (Qi (ppQ b) j)) (row pQ j) X) /\
      add (smul (qprod b) Y) Rm = smul (mprod b) X /\ nearly Rm (qprod b) /\ nearly Y (mprod b).
  Proof.
    intros LP H. pose proof (wb_32 _ _ WB) as B32. unfold Rescale. destruct (Nat.ltb_spec (length pQ) n) as [C|_]; [lia|]. cbv zeta.
    set (q0 := tab n (fun j => r_mont (Qi (ppQ b) j) (row pQ j) (mFormM b (Qi (ppQ b) j)))).
    assert (L0 : length q0 = n) by apply tab_length.
    assert (Q0 : forall j, (j < n)%nat -> canon (Qi (ppQ b) j) (row q0 j) /\ eqm (mq (Qi (ppQ b) j)) (row q0 j) (smul (mprod b) (row pQ j))).
    { intros j Hj. unfold q0. rewrite row_tab by assumption. apply mFormM_row; [assumption|]. apply (inr_wrd (Qi (ppQ b) j)); [apply okQ'; assumption|apply H; assumption]. }
    assert (W0 : forall j, (j < n)%nat -> wrd (row q0 j)) by (intros j Hj; apply (canon_wrd (Qi (ppQ b) j)); [apply okQ'; assumption|apply Q0; assumption]).
    destruct (lift_Q q0 L0 W0) as [R1 R2]. set (Rm := mkR (fun x => modup_int (Qs (ppQ b)) (col q0 x)) : R) in *.
    destruct (colmap_ok (N := N) n (fun x => ModDownQPtoP (Qs (ppQ b)) (Ms b) (n - 1) (n - 1) (col q0 x) (repeat 0 n))
      (fun x o => forall k, (k < n)%nat -> 0 <= nth k o 0 < mq (Mi b k) /\ eqz (mq (Mi b k)) (qprod b * nth k o 0) (0 - co Rm x))) as (pm & E & LM & F).
    { intros x Hx.
      destruct (ModDownQPtoP_ok (Qs (ppQ b)) (Ms b) (n - 1) (n - 1) (col q0 x) (repeat 0 n) base_QM) as (o & E & LO & O); rewrite ?Qs_len, ?Ms_len, ?col_length, ?n1; try lia.
      { apply col_words; [rewrite L0; assumption|assumption]. }
      { intros i Hi. rewrite nth_repeat. rewrite nth_M by lia. pose proof (okq_lt _ (proj2 (okM i ltac:(lia)))). lia. }
      exists o. split; [exact E|]. intros k Hk. cbv zeta in O. rewrite n1, !firstn_all2 in O by (rewrite ?Qs_len, ?col_length; lia).
      specialize (O k ltac:(lia)). rewrite nth_M, nth_repeat in O by assumption. unfold Rm. rewrite co_mkR by assumption. exact O. }
    rewrite E. cbn [rbind].
    assert (PC : forall k, (k < n)%nat -> canon (Mi b k) (row pm k)) by (intros k Hk x Hx; destruct (F x Hx) as (o & _ & O & Y); rewrite Y by assumption; apply O; assumption).
    assert (PE : forall k, (k < n)%nat -> eqm (mq (Mi b k)) (smul (qprod b) (row pm k)) (opp Rm)).
    { intros k Hk. apply eqm_co. intros x Hx. destruct (F x Hx) as (o & _ & O & Y). rewrite co_smul, co_opp, Y by assumption. destruct (O k Hk) as [_ Z]. destruct Z as [z Z]. exists z. lia. }
    assert (Wm : forall k, (k < n)%nat -> wrd (row pm k)) by (intros k Hk; apply (canon_wrd (Mi b k)); [apply okM; assumption|apply PC; assumption]).
    destruct (lift_M pm LM Wm) as [Y1 Y2]. set (Y := mkR (fun x => modup_int (Ms b) (col pm x)) : R) in *.
    destruct (colmap_ok (N := N) n (fun x => ModUp (Ms b) (Qs (ppQ b)) (n - 1) (n - 1) (col pm x))
      (fun x o => forall j, (j < n)%nat -> 0 <= nth j o 0 < 6 * mq (Qi (ppQ b) j) /\ eqz (mq (Qi (ppQ b) j)) (nth j o 0) (co Y x))) as (pq & E' & LQ & F').
    { intros x Hx.
      destruct (ModUp_ok (Ms b) (Qs (ppQ b)) (n - 1) (n - 1) (col pm x) base_M FQ) as (o & E' & LO & O); rewrite ?Qs_len, ?Ms_len, ?col_length, ?n1; try lia.
      { apply col_words; [rewrite LM; assumption|assumption]. }
      exists o. split; [exact E'|]. intros j Hj. cbv zeta in O. rewrite n1, !firstn_all2 in O by (rewrite ?Ms_len, ?col_length; lia).
      specialize (O j ltac:(lia)). rewrite nth_Q in O by assumption. unfold Y. rewrite co_mkR by assumption. exact O. }
    rewrite E'. cbn [rbind].
    destruct (eqm0_smul (mprod b) (add (smul (qprod b) Y) Rm)) as [X HX].
    { apply eqm_mprod. intros k Hk. rewrite !smul_cst. rewrite <- (Y2 k Hk). rewrite <- smul_cst, (PE k Hk). apply eqm_eq. ring. }
    exists (pq ++ pm), X, Y, Rm. split; [reflexivity|]. split; [|split; [|split; [|split]]]; trivial.
    - apply rowsR_app; trivial.
      + intros j Hj. split.
        * intros x Hx. destruct (F' x Hx) as (o & _ & O & Z). rewrite Z by assumption. apply O. assumption.
        * apply eqm_co. intros x Hx. destruct (F' x Hx) as (o & _ & O & Z). rewrite Z by assumption. apply O. assumption.
      + intros k Hk. split; [|apply Y2; assumption]. intros x Hx. specialize (PC k Hk x Hx). pose proof (okq_lt _ (proj2 (okM k Hk))). lia.
    - intros j Hj. apply (eqm_cancel _ (mprod b)); [apply q_M_coprime; assumption|]. rewrite <- HX, <- (R2 j Hj), <- (proj2 (Q0 j Hj)).
      apply eqm_sym. apply eqm_trans with (add R0 (row q0 j)); [|apply eqm_eq; ring]. apply eqm_add; [|reflexivity].
      destruct (qprod_div j Hj) as [z ->]. exists (smul z Y). rewrite !smul_cst, cst_mul. ring.
  Qed.

  Theorem Quantize_ok (pR : list R) (X : R) : (forall j, (j < n + n)%nat -> wrd (row pR j) /\ rep (Qi (ppR b) j) (row pR j) X) ->
    exists out Z Rm, Quantize b pR = Ok out /\ length out = n /\ (forall j, (j < n)%nat -> canon (Qi (ppQ b) j) (row out j) /\ eqm (mq (Qi (ppQ b) j)) (row out j) Z) /\
      add (smul (mprod b) Z) Rm = smul (bT b) X /\ nearly Rm (mprod b).
  Proof.
    intros H. pose proof (wb_32 _ _ WB) as B32. unfold Quantize. cbv zeta.
    set (pr := tab (n + n) (fun j => intt (Qi (ppR b) j) (r_scal (Qi (ppR b) j) (bT b) (row pR j)))).
    assert (Lp : length pr = (n + n)%nat) by apply tab_length.
    assert (PR : forall j, (j < n + n)%nat -> canon (Qi (ppR b) j) (row pr j) /\ eqm (mq (Qi (ppR b) j)) (row pr j) (smul (bT b) X)).
    { intros j Hj. unfold pr. rewrite row_tab by assumption. destruct (H j Hj) as [H1 H2]. split; [apply intt_canon; apply okR; assumption|].
      exact (rep_scal _ (bT b) _ _ (okR j Hj) H1 H2). }
    set (pq := firstn n pr). set (pm := skipn n pr).
    assert (LQ : length pq = n) by (unfold pq; rewrite firstn_length; lia).
    assert (LM : length pm = n) by (unfold pm; rewrite skipn_length; lia).
    assert (PQ : forall j, (j < n)%nat -> canon (Qi (ppQ b) j) (row pq j) /\ eqm (mq (Qi (ppQ b) j)) (row pq j) (smul (bT b) X)).
    { intros j Hj. rewrite <- Qi_R by assumption. unfold row, pq. rewrite nth_firstn by assumption. apply PR. lia. }
    assert (PM : forall k, (k < n)%nat -> canon (Mi b k) (row pm k) /\ eqm (mq (Mi b k)) (row pm k) (smul (bT b) X)).
    { intros k Hk. rewrite <- Mi_R. unfold row, pm. rewrite nth_skipn. apply PR. lia. }
    assert (Wm : forall k, (k < n)%nat -> wrd (row pm k)) by (intros k Hk; apply (canon_wrd (Mi b k)); [apply okM; assumption|apply PM; assumption]).
    destruct (lift_M pm LM Wm) as [R1 R2]. set (Rm := mkR (fun x => modup_int (Ms b) (col pm x)) : R) in *.
    destruct (colmap_ok (N := N) n (fun x => ModDownQPtoQ (Qs (ppQ b)) (Ms b) (n - 1) (n - 1) (col pq x) (col pm x))
      (fun x o => forall j, (j < n)%nat -> 0 <= nth j o 0 < mq (Qi (ppQ b) j) /\ eqz (mq (Qi (ppQ b) j)) (mprod b * nth j o 0) (co (row pq j) x - co Rm x))) as (out & E & LO & F).
    { intros x Hx.
      destruct (ModDownQPtoQ_ok (Qs (ppQ b)) (Ms b) (n - 1) (n - 1) (col pq x) (col pm x) base_QM) as (o & E & LO & O); rewrite ?Qs_len, ?Ms_len, ?col_length, ?n1; try lia.
      { apply col_words; [rewrite LM; assumption|assumption]. }
      { intros i Hi. rewrite nth_Q, col_nth by lia. destruct (PQ i ltac:(lia)) as [A _]. specialize (A x Hx). lia. }
      exists o. split; [exact E|]. intros j Hj. cbv zeta in O. rewrite n1, !firstn_all2 in O by (rewrite ?Ms_len, ?col_length; lia).
      specialize (O j ltac:(lia)). rewrite nth_Q, col_nth in O by lia. unfold Rm. rewrite co_mkR by assumption. exact O. }
    destruct (eqm0_smul (mprod b) (sub (smul (bT b) X) Rm)) as [Z HZ].
    { apply eqm_mprod. intros k Hk. rewrite <- (R2 k Hk), (proj2 (PM k Hk)). apply eqm_eq. ring. }
    exists out, Z, Rm. split; [exact E|]. split; [exact LO|]. split; [|split; [|exact R1]].
    - intros j Hj. split; [intros x Hx; destruct (F x Hx) as (o & _ & O & Y); rewrite Y by assumption; apply O; assumption|].
      apply (eqm_cancel _ (mprod b)); [apply q_M_coprime; assumption|]. rewrite <- HZ, <- (proj2 (PQ j Hj)).
      apply eqm_co. intros x Hx. destruct (F x Hx) as (o & _ & O & Y). rewrite co_smul, co_sub, Y by assumption. apply O. assumption.
    - rewrite <- HZ. ring.
  Qed.
End Conv.
