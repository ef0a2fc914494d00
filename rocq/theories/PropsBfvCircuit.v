(** C47: every client program over the mkbfv evaluator computes what it stands for.
    [encodes] is in PropsBfvMul.v; programs and their plaintext meaning in BfvCircuit.v. *)
From Verif Require Import Base IdSetModel KeySetModel NumTheory Negacyclic Ntt Word BasisExt BasisExtProofs DecompProofs BasisSpec Rows RlweModel SchemeSpec ExtProd ExtProps KeyGenModel Galois KeyGenProofs CtModel CtSpec CtProofs EncDecProofs EncMsgModel KeySwitchModel Digits KsLoops RotProofs ConjProofs MulProofs Instance PropsEnc PropsRotate PropsKeySwitch BfvModel PropsBfv BfvMulModel BfvConv BfvGadget BfvDig BfvKey BfvCross BfvMulProofs PropsBfvConv PropsBfvMul BfvCircuit EncFresh.
From Coq Require Import Znumtheory Setoid Morphisms.
Open Scope Z_scope.

Section Enc.
  Context {N : nat}.
  Add Ring R_ring50 : (@R_ring_theory N).
  Lemma enc_add (b : bparams) (s : string -> R N) (c0 c1 v : ctT N) m0 m1 V0 V1 : wfb N b -> encodes b s c0 m0 V0 -> encodes b s c1 m1 V1 ->
    (forall j, (j < length (bQ b))%nat -> eqm (mq (Qi (ppQ b) j)) (phase (ppQ b) s v j) (add (phase (ppQ b) s c0 j) (phase (ppQ b) s c1 j))) -> encodes b s v (add m0 m1) (V0 + V1).
  Proof.
    intros WB (X0 & v0 & w0 & A0 & B0 & C0) (X1 & v1 & w1 & A1 & B1 & C1) H. exists (add X0 X1), (add v0 v1), (add w0 w1). split; [|split; [|apply bnd_add; assumption]].
    - intros j Hj. eapply eqm_trans; [apply H; exact Hj|]. apply eqm_add; auto.
    - apply R_ext. intros i Hi. apply (f_equal (fun r => co r i)) in B0, B1. rewrite ?co_add, ?co_smul, ?co_add, ?co_smul, ?co_add in *. nia.
  Qed.
  Lemma enc_sub (b : bparams) (s : string -> R N) (c0 c1 v : ctT N) m0 m1 V0 V1 : wfb N b -> encodes b s c0 m0 V0 -> encodes b s c1 m1 V1 ->
    (forall j, (j < length (bQ b))%nat -> eqm (mq (Qi (ppQ b) j)) (phase (ppQ b) s v j) (sub (phase (ppQ b) s c0 j) (phase (ppQ b) s c1 j))) -> encodes b s v (sub m0 m1) (V0 + V1).
  Proof.
    intros WB (X0 & v0 & w0 & A0 & B0 & C0) (X1 & v1 & w1 & A1 & B1 & C1) H. exists (sub X0 X1), (sub v0 v1), (sub w0 w1). split; [|split; [|apply bnd_sub; assumption]].
    - intros j Hj. eapply eqm_trans; [apply H; exact Hj|]. apply eqm_sub; auto.
    - apply R_ext. intros i Hi. apply (f_equal (fun r => co r i)) in B0, B1. rewrite ?co_add, ?co_smul, ?co_sub, ?co_add, ?co_smul, ?co_sub, ?co_add, ?co_smul, ?co_sub in *. nia.
  Qed.
  Lemma enc_aut (b : bparams) (s : string -> R N) (c v : ctT N) h m V E VE : wfb N b -> encodes b s c m V -> bnd E VE ->
    (forall j, (j < length (bQ b))%nat -> eqm (mq (Qi (ppQ b) j)) (phase (ppQ b) s v j) (add (aut h (phase (ppQ b) s c j)) E)) -> encodes b s v (aut h m) (V + bT b * VE).
  Proof.
    intros WB (X & v0 & w & A & B & C) HE H. exists (add (aut h X) E), (add (aut h v0) (smul (bT b) E)), (aut h w). pose proof (wb_t _ _ WB) as TP. split; [|split].
    - intros j Hj. eapply eqm_trans; [apply H; exact Hj|]. apply eqm_add; [|apply eqm_refl]. apply aut_eqm. apply A. exact Hj.
    - apply (f_equal (aut h)) in B. rewrite aut_add, !aut_smul, aut_add, aut_smul in B. rewrite !smul_cst in *. transitivity (add (mul (cst (bT b)) (aut h X)) (mul (cst (bT b)) E)); [ring|]. rewrite B. ring.
    - apply bnd_add; [apply aut_bnd; exact C|apply bnd_smul'; [lia|exact HE]].
  Qed.
End Enc.

  Lemma nth_snoc {A} (l : list A) x d a : nth a (l ++ [x]) d = if (a <? length l)%nat then nth a l d else if (a =? length l)%nat then x else d.
  Proof.
    destruct (Nat.ltb_spec a (length l)); [apply app_nth1; assumption|]. rewrite app_nth2 by lia. destruct (Nat.eqb_spec a (length l)) as [->|]; [rewrite Nat.sub_diag; reflexivity|].
    destruct (a - length l)%nat as [|q] eqn:E; [lia|]. cbn. destruct q; reflexivity.
  Qed.

Section Circuit.
  Context {N : nat} (b : bparams) (WB : wfb N b) (HD : (length (bQ b) mod alpha (ppQ b) = 0)%nat).
  Notation R := (R N). Notation ct := (ctT N). Notation pp := (ppQ b). Notation L := (maxLevel (ppQ b)).
  Variables (crs : crsT N) (rs : brlkset N) (rk : rotset N) (ck : conjset N) (s r : string -> R) (B T : Z) (P : list string).

  (** relinearisation keys of everybody *)
  Definition relin_ready : Prop :=
    exists a1 a2 u, mget Z.eq_dec crs 0 = Some a1 /\ mget Z.eq_dec crs (-3) = Some a2 /\ mget Z.eq_dec crs (-1) = Some u /\ crs_ok pp u /\
      forall id, In id P -> exists key, brlk_get rs id = Ok key /\ brelin_ok b a1 a2 u (s id) (r id) B T key.
  (** rotation keys of everybody for the amounts a rotation by k uses *)
  Definition rot_ready (k : Z) : Prop :=
    let q := k mod Z.of_nat (N / 2) in forall i, q <> 0 -> used_index crs q i -> (exists a, mget Z.eq_dec crs i = Some a /\ crs_ok pp a) /\ forall id, In id P -> has_rot_key pp crs rk i B T id (s id).
  Definition conj_ready : Prop := (exists a, mget Z.eq_dec crs (-2) = Some a /\ crs_ok pp a) /\ forall id, In id P -> has_conj_key pp crs ck B T id (s id).
  (** the keys a call needs *)
  Definition bready (i : binstr) : Prop :=
    match i with BAdd _ _ | BSub _ _ => True | BMul _ _ => relin_ready | BRot _ k => rot_ready k /\ small_ok pp B | BConj _ => conj_ready /\ small_ok pp B end.

  (** register: a full-level ciphertext of exactly the parties [ids] (all among P) that encodes m with noise V *)
  Definition breg (c : ct) (ids : list string) (m : R) (V : Z) : Prop :=
    wfct pp L false c /\ (forall x, In x (parties c) <-> In x ids) /\ NoDup ids /\ incl ids P /\ encodes b s c m V.

  Lemma breg_len c ids m V : breg c ids m V -> length (parties c) = length ids.
  Proof using. intros (W & K & ND & _). apply Permutation_length. apply NoDup_Permutation; [apply parties_nodup; apply W|exact ND|exact K]. Qed.
  Lemma Lb j : (j < length (bQ b))%nat -> (j <= L)%nat.
  Proof using. clear. unfold maxLevel. cbn [Qm ppQ]. lia. Qed.
  Lemma parties_union (c0 c1 v : ct) ids0 ids1 : (forall x, In x (parties c0) <-> In x ids0) -> (forall x, In x (parties c1) <-> In x ids1) -> (forall x, In x (keys v) <-> In x (keys c0) \/ In x (keys c1)) ->
    forall x, In x (parties v) <-> In x (nodup string_dec (concat [ids0; ids1])).
  Proof using. intros H0 H1 K x. rewrite nodup_In. cbn [concat]. rewrite app_nil_r, in_app_iff, <- H0, <- H1, !in_parties, K. clear. tauto. Qed.

  Lemma bcall_ok (o : nat -> IdSetModel.order) (i : binstr) (regs : list ct) (ids : list (list string)) (ms : list R) (Vs : list Z) : (forall n, order_ok (o n)) -> bready i ->
    (forall a, In a (bargs i) -> (a < length regs)%nat) -> (forall a, (a < length regs)%nat -> breg (nth a regs nil) (nth a ids nil) (nth a ms R0) (nth a Vs 0)) ->
    exists c, bcall b crs rs rk ck o regs i = Ok c /\ breg c (bids i ids) (bplain i ms) (bnoise b crs B T i ids Vs).
  Proof using WB HD.
    intros O HR HA HI. pose proof (wf_ppQ b WB) as WF.
    assert (GET : forall a, In a (bargs i) -> BasisExt.idx (A := ct) regs a = Ok (nth a regs nil)). { intros a Ha. unfold BasisExt.idx. rewrite (nth_error_nth' regs nil (HA a Ha)). reflexivity. }
    assert (ND : NoDup (bids i ids)) by (unfold bids; apply NoDup_nodup).
    assert (INC : incl (bids i ids) P).
    { intros x Hx. unfold bids in Hx. apply nodup_In in Hx. apply in_concat in Hx as (l & H1 & H2). apply in_map_iff in H1 as (a & <- & Ha). apply (HI a (HA a Ha)). exact H2. }
    destruct i as [i j|i j|i j|i k|i]; cbn [bargs In] in *.
    - assert (Gi := GET i ltac:(tauto)). assert (Gj := GET j ltac:(tauto)). pose proof (HI i (HA i ltac:(tauto))) as Ri. pose proof (HI j (HA j ltac:(tauto))) as Rj. destruct Ri as (W0 & K0 & _ & _ & E0), Rj as (W1 & K1 & _ & _ & E1).
      destruct (C45_add N pp (o 0%nat) _ _ WF (O 0%nat) W0 W1) as (v & A1 & A2 & A3 & A4). exists v. unfold bcall. rewrite Gi. cbn [rbind]. rewrite Gj. cbn [rbind]. split; [exact A1|].
      split; [exact A2|]. split; [exact (parties_union _ _ v _ _ K0 K1 A3)|]. split; [exact ND|]. split; [exact INC|]. cbn [bplain bnoise]. apply (enc_add b s _ _ v _ _ _ _ WB E0 E1). intros q Hq. apply A4. apply Lb. exact Hq.
    - assert (Gi := GET i ltac:(tauto)). assert (Gj := GET j ltac:(tauto)). pose proof (HI i (HA i ltac:(tauto))) as Ri. pose proof (HI j (HA j ltac:(tauto))) as Rj. destruct Ri as (W0 & K0 & _ & _ & E0), Rj as (W1 & K1 & _ & _ & E1).
      destruct (C45_sub N pp (o 0%nat) _ _ WF (O 0%nat) W0 W1) as (v & A1 & A2 & A3 & A4). exists v. unfold bcall. rewrite Gi. cbn [rbind]. rewrite Gj. cbn [rbind]. split; [exact A1|].
      split; [exact A2|]. split; [exact (parties_union _ _ v _ _ K0 K1 A3)|]. split; [exact ND|]. split; [exact INC|]. cbn [bplain bnoise]. apply (enc_sub b s _ _ v _ _ _ _ WB E0 E1). intros q Hq. apply A4. apply Lb. exact Hq.
    - assert (Gi := GET i ltac:(tauto)). assert (Gj := GET j ltac:(tauto)). pose proof (HI i (HA i ltac:(tauto))) as Ri. pose proof (HI j (HA j ltac:(tauto))) as Rj.
      pose proof (breg_len _ _ _ _ Ri) as Li. pose proof (breg_len _ _ _ _ Rj) as Lj. destruct Ri as (W0 & K0 & _ & I0 & E0), Rj as (W1 & K1 & _ & I1 & E1).
      destruct (C40_product N b (o 0%nat) crs _ _ rs s r B T (nth i ms R0) (nth j ms R0) (nth i Vs 0) (nth j Vs 0) WB HD (O 0%nat) W0 W1) with (2 := E0) (3 := E1) as (v & A1 & A2 & A3 & A4).
      { destruct HR as (a1 & a2 & u & H1 & H2 & H3 & H4 & H5). exists a1, a2, u. split; [exact H1|]. split; [exact H2|]. split; [exact H3|]. split; [exact H4|].
        intros id [Hid|Hid]; apply H5; [apply I0; apply K0|apply I1; apply K1]; exact Hid. }
      exists v. unfold bcall. rewrite Gi. cbn [rbind]. rewrite Gj. cbn [rbind]. split; [exact A1|]. split; [exact A2|]. split; [exact (parties_union _ _ v _ _ K0 K1 A3)|]. split; [exact ND|]. split; [exact INC|].
      cbn [bplain bnoise]. rewrite Li, Lj in A4. exact A4.
    - assert (Gi := GET i ltac:(tauto)). pose proof (HI i (HA i ltac:(tauto))) as Ri. pose proof (breg_len _ _ _ _ Ri) as Li. destruct Ri as (W0 & K0 & _ & I0 & E0). destruct HR as [HR SM].
      destruct (C46_rotate_new N pp o crs _ k rk s B T WF O SM W0) as (v & E & A1 & A2 & A3 & A4 & A5).
      { intros x Hx U. apply (HR x Hx U). }
      { intros x id Hx U Hid. apply (HR x Hx U). apply I0. apply K0. exact Hid. }
      exists v. unfold bcall. rewrite Gi. cbn [rbind]. split; [exact A1|]. split; [exact A2|]. split.
      { intros x. unfold bids. rewrite nodup_In. cbn [bargs map concat]. rewrite app_nil_r, <- K0, !in_parties, A3. tauto. }
      split; [exact ND|]. split; [exact INC|]. cbn [bplain bnoise]. rewrite Li in A4.
      assert (Q0 : 0 <= k mod Z.of_nat (N / 2)) by (apply Z.mod_pos_bound; pose proof (proj1 (wf_N _ _ WF)) as N2; pose proof (Nat.div_le_mono 2 N 2 ltac:(lia) N2); change (2 / 2)%nat with 1%nat in *; lia).
      rewrite (galois_galEl (pow2N pp WF)) by exact Q0. eapply (enc_aut b s _ v _ _ _ E _ WB E0 A4). intros j Hj. rewrite <- (galois_galEl (pow2N pp WF)) by exact Q0. apply A5. apply Lb. exact Hj.
    - assert (Gi := GET i ltac:(tauto)). pose proof (HI i (HA i ltac:(tauto))) as Ri. pose proof (breg_len _ _ _ _ Ri) as Li. destruct Ri as (W0 & K0 & _ & I0 & E0). destruct HR as [[(a & GA & CA) HR] SM].
      destruct (C46_conjugate_new N pp (o 0%nat) crs _ ck s a B T WF (O 0%nat) SM W0 GA CA) as (v & E & A1 & A2 & A3 & A4 & A5).
      { intros id Hid. apply HR. apply I0. apply K0. exact Hid. }
      exists v. unfold bcall. rewrite Gi. cbn [rbind]. split; [exact A1|]. split; [exact A2|]. split.
      { intros x. unfold bids. rewrite nodup_In. cbn [bargs map concat]. rewrite app_nil_r, <- K0, !in_parties, A3. tauto. }
      split; [exact ND|]. split; [exact INC|]. cbn [bplain bnoise]. rewrite Li in A4.
      rewrite galois_conj. eapply (enc_aut b s _ v _ _ _ E _ WB E0 A4). intros j Hj. rewrite <- galois_conj. apply A5. apply Lb. exact Hj.
  Qed.

  Lemma brun_ok (w : nat -> nat -> IdSetModel.order) : (forall n m, order_ok (w n m)) -> forall prog n (regs : list ct) (ids : list (list string)) (ms : list R) (Vs : list Z), Forall bready prog -> bvalid (length regs) prog ->
    length ids = length regs -> length ms = length regs -> length Vs = length regs ->
    (forall a, (a < length regs)%nat -> breg (nth a regs nil) (nth a ids nil) (nth a ms R0) (nth a Vs 0)) ->
    exists regs', brun b crs rs rk ck w n prog regs = Ok regs' /\ length regs' = (length regs + length prog)%nat /\ (forall a, (a < length regs)%nat -> nth a regs' nil = nth a regs nil) /\
      forall a, (a < length regs')%nat -> breg (nth a regs' nil) (nth a (bids_run prog ids) nil) (nth a (bplain_run prog ms) R0) (nth a (bnoise_run b crs B T prog ids Vs) 0).
  Proof using WB HD.
    intros O. induction prog as [|i prog IH]; intros n regs ids ms Vs F V L1 L2 L3 H; cbn [brun].
    - exists regs. split; [reflexivity|]. split; [cbn; lia|]. split; [reflexivity|exact H].
    - inversion F as [|? ? F1 F2]; subst. destruct V as [V1 V2]. destruct (bcall_ok (w n) i regs ids ms Vs (O n) F1 V1 H) as (c & C1 & C2). rewrite C1. cbn [rbind].
      destruct (IH (S n) (regs ++ [c]) (ids ++ [bids i ids]) (ms ++ [bplain i ms]) (Vs ++ [bnoise b crs B T i ids Vs]) F2) as (regs' & R1 & R2 & R3 & R4).
      + rewrite app_length. cbn [length]. rewrite Nat.add_1_r. exact V2.
      + rewrite !app_length. cbn [length]. lia.
      + rewrite !app_length. cbn [length]. lia.
      + rewrite !app_length. cbn [length]. lia.
      + intros a Ha. rewrite app_length in Ha. cbn [length] in Ha. rewrite !nth_snoc, L1, L2, L3. destruct (Nat.ltb_spec a (length regs)); [apply H; assumption|]. assert (a = length regs) by lia. subst a. rewrite Nat.eqb_refl. exact C2.
      + exists regs'. split; [exact R1|]. split; [rewrite R2, app_length; cbn [length]; lia|]. split; [|exact R4].
        intros a Ha. rewrite R3 by (rewrite app_length; cbn [length]; lia). apply app_nth1. exact Ha.
  Qed.
End Circuit.

(** ** C47 *)
(** every program: each register holds a ciphertext of exactly the parties whose inputs went into it, which encodes what the program computes
    on the plaintext polynomials, with the noise of [bnoise_run] *)
Theorem C47_program : forall N b crs (rs : brlkset N) (rk : rotset N) (ck : conjset N) (s r : string -> R N) B T (P : list string) (w : nat -> nat -> IdSetModel.order)
  prog (cs : list (ctT N)) ids ms Vs, wfb N b -> (length (bQ b) mod alpha (ppQ b) = 0)%nat -> (forall n m, order_ok (w n m)) -> Forall (bready b crs rs rk ck s r B T P) prog -> bvalid (length cs) prog ->
  length ids = length cs -> length ms = length cs -> length Vs = length cs ->
  (forall a, (a < length cs)%nat -> breg b s P (nth a cs nil) (nth a ids nil) (nth a ms R0) (nth a Vs 0)) ->
  exists cs', brun b crs rs rk ck w 0 prog cs = Ok cs' /\ length cs' = (length cs + length prog)%nat /\ (forall a, (a < length cs)%nat -> nth a cs' nil = nth a cs nil) /\
    forall a, (a < length cs')%nat -> breg b s P (nth a cs' nil) (nth a (bids_run prog ids) nil) (nth a (bplain_run prog ms) R0) (nth a (bnoise_run b crs B T prog ids Vs) 0).
Proof. intros N b crs rs rk ck s r B T P w prog cs ids ms Vs WB HD O. intros. eapply (brun_ok b WB HD); eassumption. Qed.
Print Assumptions C47_program.

(** Decrypt of any register whose noise is below Q/2, with a key set containing the keys of its parties: the rows are the residues of an integer polynomial,
    and rounding t/Q times any such polynomial gives the plaintext result modulo t *)
Theorem C47_decrypts : forall N b crs (rs : brlkset N) (rk : rotset N) (ck : conjset N) (s r : string -> R N) B T (P : list string) (w : nat -> nat -> IdSetModel.order) (o : IdSetModel.order) sks
  prog (cs : list (ctT N)) ids ms Vs a, wfb N b -> (length (bQ b) mod alpha (ppQ b) = 0)%nat -> (forall n m, order_ok (w n m)) -> order_ok o -> Forall (bready b crs rs rk ck s r B T P) prog -> bvalid (length cs) prog ->
  length ids = length cs -> length ms = length cs -> length Vs = length cs ->
  (forall a, (a < length cs)%nat -> breg b s P (nth a cs nil) (nth a ids nil) (nth a ms R0) (nth a Vs 0)) ->
  keys_ok (ppQ b) (fun _ => True) s sks -> (a < length cs + length prog)%nat -> incl (nth a (bids_run prog ids) nil) (keys sks) -> 2 * nth a (bnoise_run b crs B T prog ids Vs) 0 < qprod b ->
  exists cs' p, brun b crs rs rk ck w 0 prog cs = Ok cs' /\ bDecrypt (ppQ b) o (nth a cs' nil) sks = Ok p /\ (exists X, residues (Qs (ppQ b)) (prows p) X) /\
    forall X i, residues (Qs (ppQ b)) (prows p) X -> (i < N)%nat -> (bT b | (2 * (bT b * co X i) + qprod b) / (2 * qprod b) - co (nth a (bplain_run prog ms) R0) i).
Proof.
  intros N b crs rs rk ck s r B T P w o sks prog cs ids ms Vs a WB HD O O' F V L1 L2 L3 H KO Ha I HV.
  destruct (C47_program N b crs rs rk ck s r B T P w prog cs ids ms Vs WB HD O F V L1 L2 L3 H) as (cs' & R1 & R2 & _ & R4). rewrite <- R2 in Ha. destruct (R4 a Ha) as (W & K & _ & _ & E).
  destruct (C16_decrypt N (ppQ b) o _ s sks (wf_ppQ b WB) O' W) as (p & P1 & P2 & P3).
  { destruct KO as [A C]. split; [exact A|]. intros id k Hk. destruct (C id k Hk) as [C1 C2]. split; [exact C1|]. intros _. apply C2. exact Logic.I. }
  { intros x Hx. apply I. apply K. exact Hx. }
  pose proof (L_n b WB) as LN. exists cs', p. split; [exact R1|]. split; [exact P1|]. split.
  - destruct E as (X & v & wq & HX & _). exists X. apply res_Q; [destruct P2 as [LP _]; rewrite LP, LN; reflexivity|]. intros j Hj. eapply eqm_trans; [apply P3; rewrite <- LN in Hj; lia|apply HX; exact Hj].
  - intros X i HX Hi. apply (C40_rounds N b s _ _ _ X i WB E HV); [|exact Hi]. intros j Hj. apply eqm_sym. eapply eqm_trans; [|apply P3; rewrite <- LN in Hj; lia].
    apply eqm_sym. apply eqm_co. intros x Hx. destruct HX as [_ HX]. specialize (HX j x). rewrite (nth_Q b) in HX by exact Hj. apply HX; [rewrite Qs_len; exact Hj|exact Hx].
Qed.
Print Assumptions C47_decrypts.

(** ** from key generation and encryption on *)
(** what the encoder hands to Encrypt for the message polynomial m: all rows, residues of one integer polynomial X with t X = Q m + rho modulo Q t, |rho| <= D
    (Q/t scaled message, rounded in any way) *)
Definition bencoded {N} (b : bparams) (D : Z) (m : R N) (pt : poly N) : Prop :=
  length (prows pt) = length (bQ b) /\ pntt pt = false /\ (forall j, (j < length (bQ b))%nat -> inr (Qi (ppQ b) j) (row (prows pt) j)) /\
  exists X w rho, (forall j, (j < length (bQ b))%nat -> eqm (mq (Qi (ppQ b) j)) (row (prows pt) j) X) /\ smul (bT b) X = add (smul (qprod b) (add m (smul (bT b) w))) rho /\ bnd rho D.
(** noise of a fresh encryption *)
Definition bfresh_noise (N : nat) (b : bparams) (B B1 D : Z) : Z := D + bT b * (B * (1 + 2 * Z.of_nat N * B1)).

Theorem C47_fresh : forall N b B B1 D (s : string -> R N) (e u e0 e1 m : R N) ss se su se0 se1 id crs c o (pt : poly N) pk,
  wfb N b -> small_ok (ppQ b) B -> small_ok (ppQ b) B1 -> ord1_ok o -> id <> id0 ->
  is_sample (ppQ b) B1 (s id) ss -> is_sample (ppQ b) B1 u su -> is_sample (ppQ b) B e se -> is_sample (ppQ b) B e0 se0 -> is_sample (ppQ b) B e1 se1 ->
  mget Z.eq_dec crs 0 = Some c -> crs_ok (ppQ b) c -> bencoded b D m pt ->
  GenPublicKey (ppQ b) crs (genSecretKeyFromSampler (ppQ b) id ss) se = Ok pk ->
  exists ct, EncryptMsgNew (ppQ b) o pt pk su se0 se1 = Ok ct /\ wfct (ppQ b) (maxLevel (ppQ b)) false ct /\ (forall x, In x (parties ct) <-> x = id) /\
    encodes b s ct m (bfresh_noise N b B B1 D).
Proof.
  intros N b B B1 D s e u e0 e1 m ss se su se0 se1 id crs c o pt pk WB SM SM1 O NI S1 S2 S3 S4 S5 GC CO (LP & FP & IP & X & w & rho & HX & HM & HB) GP.
  pose proof (wf_ppQ b WB) as WF. pose proof (wf_Qpos _ _ WF) as QP. cbn [Qm ppQ] in QP. pose proof (wb_t _ _ WB) as TP.
  assert (PL : plevel pt = maxLevel (ppQ b)) by (unfold plevel, maxLevel; rewrite LP; cbn [Qm ppQ]; lia).
  destruct (fresh_phase N (ppQ b) B B1 (s id) e u e0 e1 ss se su se0 se1 id crs c o pt pk) as (ct & A1 & A2 & A3 & A4 & A5); trivial.
  { split; [rewrite LP; cbn [Qm ppQ]; lia|]. intros j Hj. rewrite LP in Hj. apply IP. exact Hj. }
  rewrite PL in A2, A5. exists ct. split; [exact A1|]. split; [exact A2|]. split.
  { intros x. rewrite in_parties, A3. split; [tauto|]. intros ->. tauto. }
  exists (add X (fresh_error e0 u e e1 (s id))), (add rho (smul (bT b) (fresh_error e0 u e e1 (s id)))), w. split; [|split].
  - intros j Hj. eapply eqm_trans; [apply (A5 s j eq_refl); unfold maxLevel; cbn [Qm ppQ]; lia|]. apply eqm_add; [|apply eqm_refl]. unfold pvalue. rewrite FP. apply HX. exact Hj.
  - apply R_ext. intros i Hi. apply (f_equal (fun r => co r i)) in HM. rewrite ?co_add, ?co_smul, ?co_add, ?co_smul in *. nia.
  - apply bnd_add; [exact HB|]. apply bnd_smul'; [lia|exact A4].
Qed.
Print Assumptions C47_fresh.

(** the keys of party [id] in the key sets are those the key generator makes from samples of size at most B (errors) and T (secrets); [rots] are the rotation indices *)
Definition bgenerated {N} (b : bparams) (B T : Z) (crs : crsT N) (rs : brlkset N) (rk : rotset N) (ck : conjset N) (sks : gomap string (secretKey N)) (rots : list Z) (pk : string -> publicKey N) (id : string) (s r : R N) : Prop :=
  exists ss sr sb1 sb2 sd1 sd2 sv se (eb ed ev : nat -> R N) e, is_sample (ppQ b) T s ss /\ is_sample (ppQ b) T r sr /\ is_sample (ppQ b) B e se /\
    (forall k, (k < bbeta b)%nat -> is_sample (ppQ b) B (eb k) (sb1 k) /\ is_sample (ppQ b) B (eb (bbeta b + k)%nat) (sb2 k) /\ is_sample (ppQ b) B (ed k) (sd1 k) /\ is_sample (ppQ b) B (ed (bbeta b + k)%nat) (sd2 k) /\ is_sample (ppQ b) B (ev k) (sv k)) /\
    let sk := genSecretKeyFromSampler (ppQ b) id ss in
    mget seq_dec sks id = Some sk /\
    GenPublicKey (ppQ b) crs sk se = Ok (pk id) /\
    bGenRelinearizationKey b crs sk (genSecretKeyFromSampler (ppQ b) id sr) sb1 sb2 sd1 sd2 sv = brlk_get rs id /\
    (forall i, In i rots -> exists smp e, (forall j, (j < beta (ppQ b) (maxLevel (ppQ b)))%nat -> is_sample (ppQ b) B (e j) (smp j)) /\ GenRotationKey (ppQ b) crs i sk smp = rk_get rk id i) /\
    exists smp e, (forall j, (j < beta (ppQ b) (maxLevel (ppQ b)))%nat -> is_sample (ppQ b) B (e j) (smp j)) /\ GenConjugationKey (ppQ b) crs sk smp = ks_get ck id.

(** one input: who encrypts, the message, its encoding and the encryption randomness *)
Record binput (N : nat) := BIn { bi_id : string; bi_m : R N; bi_pt : poly N; bi_su : list (R N); bi_s0 : list (R N); bi_s1 : list (R N) }.
Arguments bi_id {N}. Arguments bi_m {N}. Arguments bi_pt {N}. Arguments bi_su {N}. Arguments bi_s0 {N}. Arguments bi_s1 {N}.
Definition binput_ok {N} (b : bparams) (B T D : Z) (x : binput N) : Prop :=
  bencoded b D (bi_m x) (bi_pt x) /\ exists u e0 e1, is_sample (ppQ b) T u (bi_su x) /\ is_sample (ppQ b) B e0 (bi_s0 x) /\ is_sample (ppQ b) B e1 (bi_s1 x).
(** EncryptMsgNew on every input, then the program *)
Definition bsession {N} b crs (rs : brlkset N) (rk : rotset N) (ck : conjset N) (pk : string -> publicKey N) (w : nat -> nat -> IdSetModel.order) (oe : nat -> list string -> list string) (ins : list (binput N)) (prog : list binstr) : res (list (ctT N)) :=
  cs <- rmapM (fun k => match nth_error ins k with Some x => EncryptMsgNew (ppQ b) (oe k) (bi_pt x) (pk (bi_id x)) (bi_su x) (bi_s0 x) (bi_s1 x) | None => Panic end) (seq 0 (length ins)) ;;
  brun b crs rs rk ck w 0 prog cs.
(** the rotation indices a program uses *)
Definition brots {N} (crs : crsT N) (prog : list binstr) (rots : list Z) : Prop := forall i k j, In (BRot i k) prog -> let q := k mod Z.of_nat (N / 2) in q <> 0 -> used_index crs q j -> In j rots.

(** what the hypotheses of C47_end_to_end give: the encryptions succeed, every call has its keys, Decrypt has the secret keys *)
Lemma bend_setup : forall N b B T D crs (rs : brlkset N) (rk : rotset N) (ck : conjset N) sks (pk : string -> publicKey N) (s r : string -> R N) (P : list string) rots
  (oe : nat -> list string -> list string) (ins : list (binput N)) prog,
  wfb N b -> (length (bQ b) mod alpha (ppQ b) = 0)%nat -> (forall n, ord1_ok (oe n)) -> small_ok (ppQ b) B -> small_ok (ppQ b) T ->
  (forall i, In i ([0; -1; -2; -3] ++ rots) -> exists c, mget Z.eq_dec crs i = Some c /\ crs_ok (ppQ b) c) ->
  mwf sks -> (forall id k, mget seq_dec sks id = Some k -> In id P) ->
  (forall id, In id P -> id <> id0 /\ bgenerated b B T crs rs rk ck sks rots pk id (s id) (r id)) ->
  (forall x, In x ins -> In (bi_id x) P /\ binput_ok b B T D x) -> brots crs prog rots ->
  (exists cs, rmapM (fun k => match nth_error ins k with Some x => EncryptMsgNew (ppQ b) (oe k) (bi_pt x) (pk (bi_id x)) (bi_su x) (bi_s0 x) (bi_s1 x) | None => Panic end) (seq 0 (length ins)) = Ok cs /\
     length cs = length ins /\ forall k, (k < length ins)%nat -> breg b s P (nth k cs nil) (nth k (map (fun x => [bi_id x]) ins) nil) (nth k (map bi_m ins) R0) (nth k (map (fun _ => bfresh_noise N b B T D) ins) 0)) /\
  Forall (bready b crs rs rk ck s r B T P) prog /\ keys_ok (ppQ b) (fun _ => True) s sks /\ forall id, In id P -> In id (keys sks).
Proof.
  intros N b B T D crs rs rk ck sks pk s r P rots oe ins prog WB HD OE SM SMT HC MW HS HG HI HR. pose proof (wf_ppQ b WB) as WF.
  destruct (HC 0) as (c0 & GC0 & CO0); [apply in_or_app; left; cbn; tauto|].
  assert (ENC : forall k, (k < length ins)%nat -> exists ct, match nth_error ins k with Some x => EncryptMsgNew (ppQ b) (oe k) (bi_pt x) (pk (bi_id x)) (bi_su x) (bi_s0 x) (bi_s1 x) | None => Panic end = Ok ct /\
      breg b s P ct (nth k (map (fun x => [bi_id x]) ins) nil) (nth k (map bi_m ins) R0) (nth k (map (fun _ => bfresh_noise N b B T D) ins) 0)).
  { intros k Hk. destruct (nth_error ins k) as [x|] eqn:EX; [|apply nth_error_None in EX; lia]. pose proof (nth_error_In _ _ EX) as IX. destruct (HI x IX) as (IP & EN & u & e0 & e1 & S2 & S4 & S5).
    destruct (HG _ IP) as (NI & ss & sr & sb1 & sb2 & sd1 & sd2 & sv & se & eb & ed & ev & e & S1 & _ & S3 & _ & GS & GP & _).
    destruct (C47_fresh N b B T D s e u e0 e1 (bi_m x) ss se (bi_su x) (bi_s0 x) (bi_s1 x) (bi_id x) crs c0 (oe k) (bi_pt x) (pk (bi_id x))) as (ct & A1 & A2 & A3 & A4); trivial.
    exists ct. split; [exact A1|]. rewrite (nth_indep _ nil [bi_id x]) by (rewrite map_length; exact Hk). rewrite (nth_indep (map bi_m ins) R0 (bi_m x)) by (rewrite map_length; exact Hk).
    rewrite (nth_indep _ 0 (bfresh_noise N b B T D)) by (rewrite map_length; exact Hk). rewrite (map_nth (fun x => [bi_id x])), (map_nth bi_m). rewrite (map_nth (fun _ => bfresh_noise N b B T D) ins x k).
    assert (NX : nth k ins x = x) by (apply nth_error_nth; exact EX). rewrite NX.
    split; [exact A2|]. split; [intros y; rewrite A3; cbn; intuition|]. split; [repeat constructor; cbn; tauto|]. split; [intros y [<-|[]]; exact IP|exact A4]. }
  assert (CS : exists cs, rmapM (fun k => match nth_error ins k with Some x => EncryptMsgNew (ppQ b) (oe k) (bi_pt x) (pk (bi_id x)) (bi_su x) (bi_s0 x) (bi_s1 x) | None => Panic end) (seq 0 (length ins)) = Ok cs /\
     length cs = length ins /\ forall k, (k < length ins)%nat -> breg b s P (nth k cs nil) (nth k (map (fun x => [bi_id x]) ins) nil) (nth k (map bi_m ins) R0) (nth k (map (fun _ => bfresh_noise N b B T D) ins) 0)).
  { clear - ENC. pose (f := fun k => match nth_error ins k with Some x => EncryptMsgNew (ppQ b) (oe k) (bi_pt x) (pk (bi_id x)) (bi_su x) (bi_s0 x) (bi_s1 x) | None => Panic end).
    pose (G := fun (k : nat) (ct : ctT N) => breg b s P ct (nth k (map (fun x => [bi_id x]) ins) nil) (nth k (map bi_m ins) R0) (nth k (map (fun _ => bfresh_noise N b B T D) ins) 0)).
    change (exists cs, rmapM f (seq 0 (length ins)) = Ok cs /\ length cs = length ins /\ forall k, (k < length ins)%nat -> G k (nth k cs nil)).
    assert (ENC' : forall k, (k < length ins)%nat -> exists ct, f k = Ok ct /\ G k ct) by exact ENC. clearbody f G.
    assert (X : forall n st, (forall k, (st <= k < st + n)%nat -> exists ct, f k = Ok ct /\ G k ct) -> exists cs, rmapM f (seq st n) = Ok cs /\ length cs = n /\ forall k, (k < n)%nat -> G (st + k)%nat (nth k cs nil)).
    { induction n as [|n IH]; intros st H; [exists nil; split; [reflexivity|split; [reflexivity|lia]]|]. destruct (H st ltac:(lia)) as (ct & F1 & G1). destruct (IH (S st)) as (cs & F2 & F3 & F4); [intros k Hk; apply H; lia|].
      exists (ct :: cs). cbn [seq rmapM]. rewrite F1. cbn [rbind]. rewrite F2. split; [reflexivity|]. split; [cbn; lia|]. intros [|k] Hk; [rewrite Nat.add_0_r; exact G1|]. cbn [nth]. rewrite Nat.add_succ_r, <- Nat.add_succ_l. apply F4. lia. }
    destruct (X (length ins) 0%nat) as (cs & F1 & F2 & F3); [intros k Hk; apply ENC'; lia|]. exists cs. split; [exact F1|]. split; [exact F2|]. intros k Hk. apply (F3 k Hk). }
  assert (BT : forall id, In id P -> bnd (s id) T) by (intros id IP; destruct (HG id IP) as (_ & ss & sr & sb1 & sb2 & sd1 & sd2 & sv & se & eb & ed & ev & e & S1 & _); apply S1).
  assert (SKV : forall id ss, is_sample (ppQ b) T (s id) ss -> mval (ppQ b) (maxLevel (ppQ b)) (sk_val (genSecretKeyFromSampler (ppQ b) id ss)) (fun _ => s id)) by (intros id ss H; apply (genSecretKey_ok (ppQ b) WF T (s id) id ss SMT H)).
  assert (RDY : Forall (bready b crs rs rk ck s r B T P) prog).
  { apply Forall_forall. intros i Hi. destruct i as [i j|i j|i j|i k|i]; cbn [bready]; trivial.
    - destruct (HC (-3)) as (a2 & G2 & C2); [apply in_or_app; left; cbn; tauto|]. destruct (HC (-1)) as (u & G3 & C3); [apply in_or_app; left; cbn; tauto|].
      exists c0, a2, u. split; [exact GC0|]. split; [exact G2|]. split; [exact G3|]. split; [exact C3|]. intros id IP.
      destruct (HG id IP) as (_ & ss & sr & sb1 & sb2 & sd1 & sd2 & sv & se & eb & ed & ev & e & S1 & S1' & _ & SS & _ & _ & GR & _).
      destruct (C40_keygen N b B T eb ed ev sb1 sb2 sd1 sd2 sv crs c0 a2 u (genSecretKeyFromSampler (ppQ b) id ss) (genSecretKeyFromSampler (ppQ b) id sr) (s id) (r id) WB HD SM SS) as (key & K1 & _ & K2); trivial.
      + apply SKV. exact S1.
      + apply (genSecretKey_ok (ppQ b) WF T (r id) id sr SMT S1').
      + apply S1.
      + apply S1'.
      + exists key. split; [rewrite <- GR; exact K1|exact K2].
    - split; [|exact SM]. intros j NZ U. pose proof (HR i k j Hi NZ U) as IR. split; [apply HC; apply in_or_app; right; exact IR|]. intros id IP.
      destruct (HG id IP) as (_ & ss & sr & sb1 & sb2 & sd1 & sd2 & sv & se & eb & ed & ev & e & S1 & _ & _ & _ & _ & _ & _ & GK & _). destruct (GK j IR) as (smp & e' & SS & GR).
      destruct (HC j) as (aj & GJ & CJ); [apply in_or_app; right; exact IR|]. unfold has_rot_key. exists (genSecretKeyFromSampler (ppQ b) id ss), smp, e'.
      destruct (GenRotationKey (ppQ b) crs j (genSecretKeyFromSampler (ppQ b) id ss) smp) as [key|] eqn:EK.
      + exists key. split; [apply SKV; exact S1|]. split; [apply S1|]. split; [exact SS|]. split; [reflexivity|symmetry; exact GR].
      + exfalso. revert EK. assert (J0 : 0 <= j) by (destruct U as [[_ ->]|(_ & t & T1 & _ & ->)]; [apply Z.mod_pos_bound; pose proof (proj1 (wf_N _ _ WF)) as N2; pose proof (Nat.div_le_mono 2 N 2 ltac:(lia) N2); change (2 / 2)%nat with 1%nat in *; lia|apply Z.pow_nonneg; lia]).
        destruct (GenRotationKey_ok (ppQ b) WF B e' smp crs j aj j aj (genSecretKeyFromSampler (ppQ b) id ss) (s id) SM SS (SKV id ss S1) GJ) as (key & X & _); [destruct (Z.ltb_spec j 0); [lia|reflexivity]|exact GJ|exact CJ|]. rewrite X. discriminate.
    - split; [|exact SM]. split; [apply HC; apply in_or_app; left; cbn; tauto|]. intros id IP.
      destruct (HG id IP) as (_ & ss & sr & sb1 & sb2 & sd1 & sd2 & sv & se & eb & ed & ev & e & S1 & _ & _ & _ & _ & _ & _ & _ & smp & e' & SS & GR).
      destruct (HC (-2)) as (aj & GJ & CJ); [apply in_or_app; left; cbn; tauto|]. unfold has_conj_key. exists (genSecretKeyFromSampler (ppQ b) id ss), smp, e'.
      destruct (GenConjugationKey (ppQ b) crs (genSecretKeyFromSampler (ppQ b) id ss) smp) as [key|] eqn:EK.
      + exists key. split; [apply SKV; exact S1|]. split; [apply S1|]. split; [exact SS|]. split; [reflexivity|symmetry; exact GR].
      + exfalso. destruct (GenConjugationKey_ok (ppQ b) WF B e' smp crs aj (genSecretKeyFromSampler (ppQ b) id ss) (s id) SM SS (SKV id ss S1) GJ CJ) as (key & X & _). rewrite X in EK. discriminate EK. }
  assert (KO : keys_ok (ppQ b) (fun _ => True) s sks).
  { split; [exact MW|]. intros id k Hk. destruct (HG id (HS id k Hk)) as (_ & ss & sr & sb1 & sb2 & sd1 & sd2 & sv & se & eb & ed & ev & e & S1 & _ & _ & _ & GS & _). assert (k = genSecretKeyFromSampler (ppQ b) id ss) by congruence. subst k.
    split; [reflexivity|]. intros _. apply SKV. exact S1. }
  split; [exact CS|]. split; [exact RDY|]. split; [exact KO|].
  intros x IP. destruct (HG x IP) as (_ & ss & sr & sb1 & sb2 & sd1 & sd2 & sv & se & eb & ed & ev & e & _ & _ & _ & _ & GS & _). apply (mget_In_keys seq_dec). congruence.
Qed.

(** every party of P makes its keys with the key generator, the inputs are encrypted by EncryptMsgNew, the server runs any program, and Decrypt with everybody's secret keys
    returns, for each register whose noise bound stays below Q/2, the result of the same program on the messages modulo t *)
Theorem C47_end_to_end : forall N b B T D crs (rs : brlkset N) (rk : rotset N) (ck : conjset N) sks (pk : string -> publicKey N) (s r : string -> R N) (P : list string) rots
  (w : nat -> nat -> IdSetModel.order) (oe : nat -> list string -> list string) (o : IdSetModel.order) (ins : list (binput N)) prog a,
  wfb N b -> (length (bQ b) mod alpha (ppQ b) = 0)%nat -> (forall n m, order_ok (w n m)) -> (forall n, ord1_ok (oe n)) -> order_ok o ->
  small_ok (ppQ b) B -> small_ok (ppQ b) T ->
  (forall i, In i ([0; -1; -2; -3] ++ rots) -> exists c, mget Z.eq_dec crs i = Some c /\ crs_ok (ppQ b) c) ->
  mwf sks -> (forall id k, mget seq_dec sks id = Some k -> In id P) ->
  (forall id, In id P -> id <> id0 /\ bgenerated b B T crs rs rk ck sks rots pk id (s id) (r id)) ->
  (forall x, In x ins -> In (bi_id x) P /\ binput_ok b B T D x) ->
  bvalid (length ins) prog -> brots crs prog rots -> (a < length ins + length prog)%nat ->
  2 * nth a (bnoise_run b crs B T prog (map (fun x => [bi_id x]) ins) (map (fun _ => bfresh_noise N b B T D) ins)) 0 < qprod b ->
  exists cs p, bsession b crs rs rk ck pk w oe ins prog = Ok cs /\ bDecrypt (ppQ b) o (nth a cs nil) sks = Ok p /\ (exists X, residues (Qs (ppQ b)) (prows p) X) /\
    forall X i, residues (Qs (ppQ b)) (prows p) X -> (i < N)%nat -> (bT b | (2 * (bT b * co X i) + qprod b) / (2 * qprod b) - co (nth a (bplain_run prog (map bi_m ins)) R0) i).
Proof.
  intros N b B T D crs rs rk ck sks pk s r P rots w oe o ins prog a WB HD O OE OD SM SMT HC MW HS HG HI V HR Ha HV.
  destruct (bend_setup N b B T D crs rs rk ck sks pk s r P rots oe ins prog) as ((cs & CS1 & CS2 & CS3) & RDY & KO & IK); trivial. unfold bsession. rewrite CS1. cbn [rbind].
  destruct (C47_decrypts N b crs rs rk ck s r B T P w o sks prog cs (map (fun x => [bi_id x]) ins) (map bi_m ins) (map (fun _ => bfresh_noise N b B T D) ins) a) as (cs' & p & R1 & R2 & R3 & R4); rewrite ?map_length, ?CS2; trivial.
  - destruct (C47_program N b crs rs rk ck s r B T P w prog cs (map (fun x => [bi_id x]) ins) (map bi_m ins) (map (fun _ => bfresh_noise N b B T D) ins)) as (cs' & _ & L2 & _ & L4); rewrite ?map_length, ?CS2; trivial.
    assert (Ha' : (a < length cs')%nat) by (rewrite L2, CS2; exact Ha). destruct (L4 a Ha') as (_ & _ & _ & I & _). intros x Hx. apply IK. apply I. exact Hx.
  - exists cs', p. split; [exact R1|]. split; [exact R2|]. split; [exact R3|exact R4].
Qed.
