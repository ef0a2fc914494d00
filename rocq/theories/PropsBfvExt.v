(** C71: mkbfv's external product and the switching keys of GenBFVSwitchingKey. *)
From Verif Require Import Base IdSetModel KeySetModel NumTheory Negacyclic Ntt Word BasisExt BasisExtProofs DecompProofs Rows RlweModel SchemeSpec ExtProd ExtProps KeyGenModel Galois KeyGenProofs Instance CtModel CtSpec CtProofs KeySwitchModel Digits KsLoops MulProofs BfvModel BfvMulModel BfvConv BfvGadget BfvDig BfvKey BfvCross PropsBfvMulEx.
From Coq Require Import Znumtheory Setoid Morphisms.
Open Scope Z_scope.

(** ** Specification *)
(** size of QMul * (external product) - t * X * s: 2 beta digits, errors of size B, secret of size T *)
Definition bfv_ext_noise (N : nat) (b : bparams) (B T : Z) : Z :=
  (mprod b * (Z.of_nat (2 * beta (ppQ b) (maxLevel (ppQ b))) * (Z.of_nat N * B * rdig_bound b) + slack (Pprod (ppQ b)))
   + Z.of_nat (2 * beta (ppQ b) (maxLevel (ppQ b))) * (mprod b * (Z.of_nat N * rdig_bound b * T))) / Pprod (ppQ b).
(** the two vectors hold, in Montgomery form, e_k + g_k s with g_k = floor (t P E_k / QMul); E_k: one modulo the k-th block of the moduli of Q and QMul, zero modulo the others (keygen.go:90-162) *)
Definition bfv_switch_key {N} (b : bparams) (s : R N) (e : nat -> R N) (k1 k2 : swk N) : Prop :=
  (bbeta b <= length k1)%nat /\ (bbeta b <= length k2)%nat /\ forall k, (k < 2 * bbeta b)%nat -> mval (ppQ b) (maxLevel (ppQ b)) (pick b k1 k2 k) (fun _ => add (e k) (smul (Ek b k * bT b * Pprod (ppQ b) / mprod b) s)).

Section Ext.
  Context {N : nat} (b : bparams) (WB : wfb N b).
  Notation R := (R N).
  Notation n := (length (bQ b)). Notation al := (alpha (ppQ b)). Notation pp := (ppQ b). Notation L := (maxLevel (ppQ b)). Notation be := (bbeta b).
  Hypothesis HD : (n mod al = 0)%nat.
  Let WF : wfp N pp := wf_ppQ b WB.
  Add Ring R_ring38 : (@R_ring_theory N).
  Lemma ext_core (aR : list R) X (k1 k2 d1 d2 : swk N) (s : R) e B T : rowsR b aR X -> bfv_switch_key b s e k1 k2 -> bnd s T -> (forall k, (k < be + be)%nat -> bnd (e k) B) ->
    bdigits b d1 d2 X (rdig_bound b) (fun k => DR b k aR) ->
    exists out W E, ExternalProductBFVHoisted b L d1 d2 k1 k2 = Ok out /\ length out = n /\ (forall j, (j <= L)%nat -> canon (Qi pp j) (row out j) /\ eqm (mq (Qi pp j)) (row out j) W) /\
      smul (mprod b) W = add (smul (bT b) (mul X s)) E /\ bnd E (bfv_ext_noise N b B T).
  Proof.
    intros RX (L1 & L2 & HK) BS BE BD. set (D := fun k => DR b k aR) in *. set (ks := seq 0 (be + be)).
    destruct (ExtBFVHoisted_ok b WB HD k1 k2 d1 d2 (fun k _ => add (e k) (smul (gk b k) s)) X (rdig_bound b) D BD L1 L2) as (out & Rm & EO & LO & CO & BR & HO); [intros k Hk; apply HK; lia|].
    fold ks in HO. pose proof BD as (_ & _ & BD').
    destruct (gamma_ok b WB HD D (fun _ => s) X s (rdig_bound b) T) as (G & rho & G1 & G2 & G3).
    { intros k j Hk Hj. split; [apply (BD' k Hk); exact Hj|reflexivity]. } { intros k Hk. split; [apply (BD' k Hk)|exact BS]. }
    fold ks in G1. set (Err := sub (Lsum ks (fun k => mul (e k) (D k))) Rm). destruct (any_bnd (add G Err)) as [B' HB'].
    destruct (div_P pp WF L (frow out) (fun _ => R0) (add G Err) B' (L_Qm b WB)) as (W & _ & E1 & E2); [|exact HB'|].
    - intros i V. rewrite (HO i V). rewrite (Lsum_ext ks _ (fun k => add (smul (gk b k) (mul (D k) s)) (mul (e k) (D k)))) by (intros; rewrite !smul_cst; ring). rewrite Lsum_add, (G1 i V). unfold Err. apply eqm_eq. rewrite smul_cst. ring.
    - set (F := sub (smul (mprod b) W) (smul (bT b) (mul X s))).
      assert (PF : smul (Pprod pp) F = sub (smul (mprod b) Err) rho).
      { apply R_ext. intros i Hi. unfold F. rewrite co_smul, !co_sub, !co_smul.
        assert (X1 : co (add G Err) i = co (smul (Pprod pp) W) i) by (rewrite E1; reflexivity). assert (X2 : co (add (smul (mprod b) G) rho) i = co (smul (bT b * Pprod pp) (mul X s)) i) by (rewrite G2; reflexivity).
        rewrite co_add, co_smul in X1. rewrite co_add, !co_smul in X2. transitivity (mprod b * (Pprod pp * co W i) - bT b * Pprod pp * co (mul X s) i); [ring|]. rewrite <- X1, <- X2. ring. }
      exists out, W, F. split; [exact EO|]. split; [rewrite LO; apply (L_n b WB)|]. split; [|split].
      + intros j Hj. split; [apply CO; exact Hj|]. rewrite (E2 j Hj). apply eqm_eq. ring.
      + unfold F. apply R_ext. intros i Hi. rewrite co_add, co_sub, !co_smul. ring.
      + unfold bfv_ext_noise. apply bnd_div; [apply (Pprod_pos pp WF)|]. rewrite PF. fold be. replace (2 * be)%nat with (be + be)%nat by lia. apply bnd_sub; [|exact G3].
        pose proof (mprod_pos b WB) as MP. rewrite <- (Z.abs_eq (mprod b)) at 2 by lia. apply bnd_smul. unfold Err. apply bnd_sub; [|exact BR]. unfold ks. rewrite <- (seq_length (be + be) 0) at 2. apply Lsum_bnd. intros k Hk. apply in_seq in Hk. apply bnd_mul; [apply BE; lia|apply (BD' k ltac:(lia))].
  Qed.
End Ext.

(** ** The theorems *)
(** aR: residues of X modulo the moduli of Q and QMul (any representatives below 6q).  The result is, modulo Q, an integer polynomial W with QMul W = t X s + E *)
Theorem C71_external_product : forall N b (aR : list (R N)) X (k1 k2 : swk N) (s : R N) e B T, wfb N b -> (length (bQ b) mod alpha (ppQ b) = 0)%nat -> rowsR b aR X -> bfv_switch_key b s e k1 k2 -> bnd s T ->
  (forall k, (k < 2 * bbeta b)%nat -> bnd (e k) B) ->
  exists out W E, ExternalProductBFV b (maxLevel (ppQ b)) aR k1 k2 = Ok out /\ length out = length (bQ b) /\
    (forall j, (j < length (bQ b))%nat -> canon (Qi (ppQ b) j) (row out j) /\ eqm (mq (Qi (ppQ b) j)) (row out j) W) /\
    smul (mprod b) W = add (smul (bT b) (mul X s)) E /\ bnd E (bfv_ext_noise N b B T).
Proof.
  intros N b aR X k1 k2 s e B T WB HD RX SK BS BE. destruct (DecomposeBFV_ok b WB HD aR X RX) as (d1 & d2 & ED & BD). pose proof (L_n b WB) as LN.
  destruct (ext_core b WB HD aR X k1 k2 d1 d2 s e B T RX SK BS ltac:(intros k Hk; apply BE; lia) BD) as (out & W & E & H1 & H2 & H3 & H4 & H5).
  exists out, W, E. split; [unfold ExternalProductBFV; rewrite ED; cbn [rbind]; exact H1|]. split; [exact H2|]. split; [|split; assumption]. intros j Hj. apply H3. lia.
Qed.
Print Assumptions C71_external_product.
(** GenBFVSwitchingKey makes such keys *)
Theorem C71_keygen : forall N b B (e : nat -> R N) (smp1 smp2 : nat -> list (R N)) sk s, wfb N b -> (length (bQ b) mod alpha (ppQ b) = 0)%nat -> small_ok (ppQ b) B ->
  (forall k, (k < bbeta b)%nat -> is_sample (ppQ b) B (e k) (smp1 k) /\ is_sample (ppQ b) B (e (bbeta b + k)%nat) (smp2 k)) -> mval (ppQ b) (maxLevel (ppQ b)) sk (fun _ => s) ->
  exists k1 k2, GenBFVSwitchingKey b sk smp1 smp2 = Ok (k1, k2) /\ length k1 = bbeta b /\ length k2 = bbeta b /\ bfv_switch_key b s e k1 k2.
Proof.
  intros N b B e smp1 smp2 sk s WB HD S H K. destruct (GenBFVSwitchingKey_ok b WB HD B e smp1 smp2 sk s S H K) as (k1 & k2 & E & L1 & L2 & M). exists k1, k2. split; [exact E|]. split; [exact L1|]. split; [exact L2|].
  split; [lia|]. split; [lia|]. intros k Hk. apply M. lia.
Qed.
Print Assumptions C71_keygen.
(** ... and panics for every chain whose length is not a multiple of alpha *)
Theorem C71_keygen_panics : forall N b (smp1 smp2 : nat -> list (R N)) sk, wfb N b -> (length (bQ b) mod alpha (ppQ b) <> 0)%nat -> GenBFVSwitchingKey b sk smp1 smp2 = Panic.
Proof.
  intros N b smp1 smp2 sk WB HD. destruct (gadInt_panic b WB HD) as (i & Hi & E). unfold GenBFVSwitchingKey.
  assert (G : forall l, In i l -> rmapM (fun i => g <- gadInt b (Qs (ppQ b)) i ;; Ok (bfvDigit b sk g (smp1 i))) l = Panic).
  { induction l as [|x l IH]; [intros []|]. intros [->|H]; cbn [rmapM]; [rewrite E; reflexivity|]. destruct (gadInt b (Qs (ppQ b)) x); cbn [rbind]; [|reflexivity]. rewrite (IH H). reflexivity. }
  rewrite G by (apply in_seq; lia). reflexivity.
Qed.
Print Assumptions C71_keygen_panics.
(** from key generation to the product: sk holds s (of size T), the errors have size B *)
Theorem C71_generated : forall N b B T (e : nat -> R N) (smp1 smp2 : nat -> list (R N)) sk s (aR : list (R N)) X, wfb N b -> (length (bQ b) mod alpha (ppQ b) = 0)%nat -> small_ok (ppQ b) B ->
  (forall k, (k < bbeta b)%nat -> is_sample (ppQ b) B (e k) (smp1 k) /\ is_sample (ppQ b) B (e (bbeta b + k)%nat) (smp2 k)) -> mval (ppQ b) (maxLevel (ppQ b)) sk (fun _ => s) -> bnd s T -> rowsR b aR X ->
  exists k1 k2 out W E, GenBFVSwitchingKey b sk smp1 smp2 = Ok (k1, k2) /\ ExternalProductBFV b (maxLevel (ppQ b)) aR k1 k2 = Ok out /\ length out = length (bQ b) /\
    (forall j, (j < length (bQ b))%nat -> canon (Qi (ppQ b) j) (row out j) /\ eqm (mq (Qi (ppQ b) j)) (row out j) W) /\
    smul (mprod b) W = add (smul (bT b) (mul X s)) E /\ bnd E (bfv_ext_noise N b B T).
Proof.
  intros N b B T e smp1 smp2 sk s aR X WB HD S H K BS RX. destruct (C71_keygen N b B e smp1 smp2 sk s WB HD S H K) as (k1 & k2 & EK & _ & _ & SK).
  destruct (C71_external_product N b aR X k1 k2 s e B T WB HD RX SK BS) as (out & W & E & HO).
  { intros k Hk. destruct (Nat.ltb_spec k (bbeta b)) as [C|C]; [apply (H k C)|]. replace k with (bbeta b + (k - bbeta b))%nat by lia. apply (H (k - bbeta b)%nat). lia. }
  exists k1, k2, out, W, E. split; [exact EK|exact HO].
Qed.
Print Assumptions C71_generated.

(** ** The hypotheses can be met: N = 8, two moduli in Q and in QMul, four in P *)
Definition exe_X : R 8 := ex_poly [123456789012; -5; 77; 0; 31415926535; 2; -271828; 9].
Definition exe_a : list (R 8) := tab 4 (fun j => redm (mq (Qi (ppR exc) j)) exe_X).
Example C71_nonvacuous : exists k1 k2 out W E, GenBFVSwitchingKey exc (sk_val (exc_sk "alice")) exc_smp (fun k => exc_smp (1 + k)) = Ok (k1, k2) /\ ExternalProductBFV exc 1 exe_a k1 k2 = Ok out /\
  (forall j, (j < 2)%nat -> eqm (mq (Qi (ppQ exc) j)) (row out j) W) /\ smul (mprod exc) W = add (smul 17 (mul exe_X ex_s)) E /\ bnd E (bfv_ext_noise 8 exc 3 1) /\ 2 * bfv_ext_noise 8 exc 3 1 < mprod exc * qprod exc /\
  ~ bnd exe_X (10 ^ 11).
Proof.
  assert (RX : rowsR exc exe_a exe_X).
  { split; [reflexivity|]. intros j Hj. change (length (bQ exc) + length (bQ exc))%nat with 4%nat in Hj. unfold exe_a, row. rewrite nth_tab by exact Hj. split.
    - intros x Hx. unfold redm. rewrite co_mkR by exact Hx. assert (M : 0 < mq (Qi (ppR exc) j)) by (do 4 (destruct j as [|j]; [reflexivity|]); lia). pose proof (Z.mod_pos_bound (co exe_X x) _ M). lia.
    - apply redm_eqm. }
  destruct (C71_generated 8 exc 3 1 ex_e exc_smp (fun k => exc_smp (1 + k)) (sk_val (exc_sk "alice")) ex_s exe_a exe_X exc_wf exc_div exc_small) as (k1 & k2 & out & W & E & H1 & H2 & _ & H3 & H4 & H5).
  - intros k Hk. split; [apply exc_e_sample|]. assert (BB : bbeta exc = 1%nat) by (vm_compute; reflexivity). rewrite BB. apply exc_e_sample.
  - apply exc_sk_val.
  - apply bnd_poly; [lia|reflexivity].
  - exact RX.
  - exists k1, k2, out, W, E. split; [exact H1|]. split; [exact H2|]. split; [intros j Hj; apply H3; exact Hj|]. split; [exact H4|]. split; [exact H5|]. split; [vm_compute; reflexivity|].
    intros HB. specialize (HB 0%nat ltac:(lia)). vm_compute in HB. apply HB. reflexivity.
Qed.
