(** A case where every hypothesis of C40_decrypts holds, the noise bound included: N = 8, 20-bit primes, t = 17, a ciphertext of alice and bob times one of bob and carol. *)
From Verif Require Import Base IdSetModel KeySetModel NumTheory Negacyclic Ntt Word BasisExt BasisExtProofs DecompProofs BasisSpec Rows RlweModel SchemeSpec ExtProd ExtProps KeyGenModel Galois KeyGenProofs CtModel CtSpec CtProofs EncDecProofs KeySwitchModel Digits KsLoops RotProofs ConjProofs MulProofs Instance PropsEnc PropsRotate PropsKeySwitch BfvModel PropsBfv BfvMulModel BfvConv BfvGadget BfvDig BfvKey BfvCross BfvMulProofs PropsBfvConv PropsBfvMul.
From Coq Require Import Znumtheory Setoid Morphisms.
Open Scope Z_scope.

Definition exc : bparams := BP [Mod 1048609 731182; Mod 1048721 385174] [Mod 1048897 835508; Mod 1049057 881985] [Mod 1049089 55526; Mod 1049137 214121; Mod 1049201 469109; Mod 1049281 218362] 17.
Lemma exc_wf : wfb 8 exc.
Proof.
  assert (F : Forall (okmod (N := 8)) (Qm (ppR exc) ++ Pm (ppR exc))).
  { cbn [ppR exc bQ bM bP Qm Pm app]. repeat (constructor; [apply ex_okm; [vm_compute; reflexivity|cbn [mq]; lia|vm_compute; reflexivity]|]). constructor. }
  assert (OB : okbase (Qs (ppR exc) ++ Ps (ppR exc))).
  { split.
    - cbn [Qs Ps ppR exc bQ bM bP Qm Pm map mq app]. repeat (constructor; [cbn; intuition discriminate|]). constructor.
    - unfold Qs, Ps. rewrite <- map_app. apply Forall_map. apply (Forall_impl _ (P := okmod (N := 8))); [|exact F]. intros m H. apply H. }
  assert (A : alpha (ppR exc) = 2%nat) by reflexivity.
  constructor; [constructor; trivial; rewrite ?A; cbn [ppR exc bQ bM bP Qm Pm gam length app]; lia|reflexivity|cbn; lia|cbn; lia].
Qed.
Lemma exc_div : (length (bQ exc) mod alpha (ppQ exc) = 0)%nat. Proof. reflexivity. Qed.

(** a ciphertext of the parties l with decryption X: every mask is A *)
Definition exc_ct (l : list string) (A X : R 8) : ctT 8 :=
  (id0, Pol (rows_of (ppQ exc) (sub X (Lsum l (fun _ => mul A ex_s)))) false) :: map (fun id => (id, Pol (rows_of (ppQ exc) A) false)) l.
Lemma exc_ct_ok l (A X : R 8) : NoDup (id0 :: l) -> wfct (ppQ exc) (maxLevel (ppQ exc)) false (exc_ct l A X) /\ parties (exc_ct l A X) = l /\
  forall j, (j < length (bQ exc))%nat -> eqm (mq (Qi (ppQ exc) j)) (phase (ppQ exc) (fun _ => ex_s) (exc_ct l A X) j) X.
Proof.
  intros ND. pose proof (wf_ppQ exc exc_wf) as WF.
  assert (SM : forall e : R 8, forall j, (j <= maxLevel (ppQ exc))%nat -> inr (Qi (ppQ exc) j) (row (rows_of (ppQ exc) e) j) /\ eqm (mq (Qi (ppQ exc) j)) (row (rows_of (ppQ exc) e) j) e).
  { intros e. destruct (any_bnd e) as [B HB]. apply (rows_of_sample (ppQ exc) 8 B e WF HB). }
  assert (WP : forall e : R 8, wfpoly (ppQ exc) (maxLevel (ppQ exc)) false (Pol (rows_of (ppQ exc) e) false)).
  { intros e. split; [unfold rows_of; cbn [prows]; rewrite tab_length; reflexivity|]. split; [reflexivity|]. intros j Hj. apply SM. exact Hj. }
  assert (K : keys (exc_ct l A X) = id0 :: l) by (unfold exc_ct, keys; cbn [map fst]; rewrite map_map; cbn [fst]; rewrite map_id; reflexivity).
  assert (G : forall l' id p, mget seq_dec (map (fun id => (id, Pol (rows_of (ppQ exc) A) false)) l') id = Some p -> p = Pol (rows_of (ppQ exc) A) false).
  { induction l' as [|y l' IH]; cbn [map mget]; intros id p H; [discriminate|]. destruct (seq_dec id y); [congruence|exact (IH id p H)]. }
  assert (PE : parties (exc_ct l A X) = l).
  { unfold parties. rewrite K. cbn [filter]. destruct (string_dec id0 id0) as [_|C]; [|contradiction]. cbn [negb]. inversion ND as [|? ? NI ND']; subst. clear - NI. induction l as [|y l IH]; [reflexivity|].
    cbn [filter]. destruct (string_dec y id0) as [->|]; [exfalso; apply NI; left; reflexivity|]. cbn [negb]. f_equal. apply IH. intros C. apply NI. right. exact C. }
  split; [|split; [exact PE|]].
  - split; [unfold mwf; rewrite K; exact ND|]. split; [rewrite K; left; reflexivity|]. intros id p H. unfold exc_ct in H. cbn [mget] in H. destruct (seq_dec id id0) as [_|_].
    + injection H as <-. apply WP.
    + rewrite (G l id p H). apply WP.
  - intros j Hj. assert (Hj' : (j <= maxLevel (ppQ exc))%nat) by (change (length (bQ exc)) with 2%nat in Hj; change (maxLevel (ppQ exc)) with 1%nat; lia).
    unfold phase. rewrite PE. assert (C0 : comp (exc_ct l A X) id0 = Pol (rows_of (ppQ exc) (sub X (Lsum l (fun _ => mul A ex_s)))) false) by reflexivity. rewrite C0.
    unfold pvalue at 1. cbn [pntt prows].
    apply (eqm_trans _ _ (add (sub X (Lsum l (fun _ => mul A ex_s))) (Lsum l (fun _ => mul A ex_s)))).
    2:{ apply eqm_eq. apply R_ext. intros i Hi. rewrite co_add, co_sub. ring. }
    apply eqm_add; [apply SM; exact Hj'|]. apply Lsum_eqm.
    { intros id Hid. apply eqm_mul; [|reflexivity]. assert (IK : In id (keys (exc_ct l A X))) by (rewrite K; right; exact Hid).
      unfold comp. destruct (mget seq_dec (exc_ct l A X) id) as [p|] eqn:E; [|exfalso; apply (mget_In_keys seq_dec) in IK; contradiction].
      unfold exc_ct in E. cbn [mget] in E. destruct (seq_dec id id0) as [->|_]; [exfalso; inversion ND; contradiction|]. rewrite (G l id p E). unfold pvalue. cbn [pntt prows]. apply SM. exact Hj'. }
Qed.

(** Q / t rounded down times the message plus an error *)
Definition exc_X (m e : R 8) : R 8 := add (smul (qprod exc / 17) m) e.
Lemma exc_encodes l A m e M B : NoDup (id0 :: l) -> bnd m M -> bnd e B -> encodes exc (fun _ => ex_s) (exc_ct l A (exc_X m e)) m (qprod exc mod 17 * M + 17 * B).
Proof.
  intros ND HM HB. destruct (exc_ct_ok l A (exc_X m e) ND) as (_ & _ & P).
  exists (exc_X m e), (add (smul (- (qprod exc mod 17)) m) (smul 17 e)), R0. split; [exact P|]. split.
  - apply R_ext. intros i Hi. unfold exc_X. change (bT exc) with 17. rewrite ?co_smul, ?co_add, ?co_smul, ?co_add, ?co_smul, ?co_R0. pose proof (Z.div_mod (qprod exc) 17 ltac:(lia)) as D.
    rewrite D at 2. ring.
  - apply bnd_add.
    + replace (qprod exc mod 17) with (Z.abs (- (qprod exc mod 17))) at 2 by (vm_compute; reflexivity). apply bnd_smul. exact HM.
    + change (17 * B) with (Z.abs 17 * B). apply bnd_smul. exact HB.
Qed.

Definition exc_u (i : Z) (k : nat) : polyQP 8 :=
  QP (tab 2 (fun j => mkR (fun x => Z.of_nat (7 * x + 5 * k + 3 * j) + i + 10))) (tab 4 (fun j => mkR (fun x => Z.of_nat (9 * x + 4 * k + 2 * j) + i + 10))).
Lemma exc_crs_entry i : -4 <= i <= 2 -> crs_ok (ppQ exc) (crs_entry (ppQ exc) (exc_u i)).
Proof.
  intros Hi. apply (crs_entry_ok (ppQ exc) (wf_ppQ exc exc_wf)). intros k Hk. assert (B : beta (ppQ exc) (maxLevel (ppQ exc)) = 1%nat) by (vm_compute; reflexivity). rewrite B in Hk.
  intros [j|j] V x Hx; cbn in V; cbn [fqp exc_u qpQ qpP]; unfold row; rewrite nth_tab by lia; rewrite co_mkR by assumption; unfold W; lia.
Qed.
Definition exc_crs : crsT 8 := [(0, crs_entry (ppQ exc) (exc_u 0)); (-1, crs_entry (ppQ exc) (exc_u (-1))); (-3, crs_entry (ppQ exc) (exc_u (-3)))].
Lemma exc_small : small_ok (ppQ exc) 3.
Proof. split; [cbn; lia|]. intros k Hk. cbn in Hk. do 4 (destruct k as [|k]; [vm_compute; discriminate|]). lia. Qed.
Definition exc_sk (id : string) : secretKey 8 := genSecretKeyFromSampler (ppQ exc) id (rows_of (ppQ exc) ex_s).
Lemma exc_s_sample : is_sample (ppQ exc) 3 ex_s (rows_of (ppQ exc) ex_s).
Proof. apply rows_of_sample; [apply (wf_ppQ exc exc_wf)|]. apply bnd_poly; [lia|reflexivity]. Qed.
Lemma exc_sk_val id : mval (ppQ exc) (maxLevel (ppQ exc)) (sk_val (exc_sk id)) (fun _ => ex_s).
Proof. apply (genSecretKey_ok (ppQ exc) (wf_ppQ exc exc_wf) 3); [apply exc_small|apply exc_s_sample]. Qed.
Definition exc_smp (k : nat) : list (R 8) := rows_of (ppQ exc) (ex_e k).
Lemma exc_e_sample k : is_sample (ppQ exc) 3 (ex_e k) (exc_smp k).
Proof. apply rows_of_sample; [apply (wf_ppQ exc exc_wf)|]. apply ex_e_sample. Qed.
Definition exc_rlk (id : string) : bRelinKey 8 :=
  match bGenRelinearizationKey exc exc_crs (exc_sk id) (exc_sk id) exc_smp (fun k => exc_smp (1 + k)) exc_smp (fun k => exc_smp (1 + k)) exc_smp with Ok k => k | Panic => BRLK id nil nil nil nil nil end.
Lemma exc_rlk_ok id : bGenRelinearizationKey exc exc_crs (exc_sk id) (exc_sk id) exc_smp (fun k => exc_smp (1 + k)) exc_smp (fun k => exc_smp (1 + k)) exc_smp = Ok (exc_rlk id) /\
  brelin_ok exc (crs_entry (ppQ exc) (exc_u 0)) (crs_entry (ppQ exc) (exc_u (-3))) (crs_entry (ppQ exc) (exc_u (-1))) ex_s ex_s 3 1 (exc_rlk id).
Proof.
  assert (BS : bnd ex_s 1) by (apply bnd_poly; [lia|reflexivity]). assert (BE : bbeta exc = 1%nat) by (vm_compute; reflexivity).
  destruct (C40_keygen 8 exc 3 1 ex_e ex_e ex_e exc_smp (fun k => exc_smp (1 + k)) exc_smp (fun k => exc_smp (1 + k)) exc_smp exc_crs (crs_entry (ppQ exc) (exc_u 0)) (crs_entry (ppQ exc) (exc_u (-3))) (crs_entry (ppQ exc) (exc_u (-1))) (exc_sk id) (exc_sk id) ex_s ex_s exc_wf exc_div exc_small) as (key & A & _ & B).
  - intros k Hk. rewrite BE. do 4 (split; [apply exc_e_sample|]). apply exc_e_sample.
  - apply exc_sk_val.
  - apply exc_sk_val.
  - exact BS.
  - exact BS.
  - reflexivity.
  - reflexivity.
  - reflexivity.
  - apply exc_crs_entry. lia.
  - apply exc_crs_entry. lia.
  - apply exc_crs_entry. lia.
  - assert (E : exc_rlk id = key) by (unfold exc_rlk; rewrite A; reflexivity). rewrite E. split; [exact A|exact B].
Qed.

Definition exc_m0 : R 8 := ex_poly [1; 2; 3; 4; 5; 6; 7; 8].
Definition exc_m1 : R 8 := ex_poly [8; 0; -3; 1; 0; 2; -8; 5].
Definition exc_A : R 8 := ex_poly [123456; 99; 7; -5; 424242; 1; 2; 3].
Definition exc_names : list string := ["alice"; "bob"; "carol"]%string.
Theorem C40_nonvacuous : exists (c0 c1 : ctT 8) (rs : brlkset 8) sks V0 V1, wfb 8 exc /\ (length (bQ exc) mod alpha (ppQ exc) = 0)%nat /\ order_ok ex_ord /\
  wfct (ppQ exc) (maxLevel (ppQ exc)) false c0 /\ wfct (ppQ exc) (maxLevel (ppQ exc)) false c1 /\ parties c0 = ["alice"; "bob"]%string /\ parties c1 = ["bob"; "carol"]%string /\
  relin_keys exc (fun _ => ex_s) (fun _ => ex_s) exc_crs rs 3 1 c0 c1 /\ (forall id, In id exc_names -> brlk_get rs id = bGenRelinearizationKey exc exc_crs (exc_sk id) (exc_sk id) exc_smp (fun k => exc_smp (1 + k)) exc_smp (fun k => exc_smp (1 + k)) exc_smp) /\
  keys_ok (ppQ exc) (fun _ => True) (fun _ => ex_s) sks /\ incl (parties c0) (keys sks) /\ incl (parties c1) (keys sks) /\
  encodes exc (fun _ => ex_s) c0 exc_m0 V0 /\ encodes exc (fun _ => ex_s) c1 exc_m1 V1 /\ 2 * bfv_prod_noise 8 exc (length (parties c0)) (length (parties c1)) 3 1 V0 V1 < qprod exc.
Proof.
  assert (N0 : NoDup (id0 :: ["alice"; "bob"]%string)) by (repeat constructor; cbn; intuition discriminate).
  assert (N1 : NoDup (id0 :: ["bob"; "carol"]%string)) by (repeat constructor; cbn; intuition discriminate).
  assert (B0 : bnd exc_m0 8) by (apply bnd_poly; [lia|reflexivity]). assert (B1 : bnd exc_m1 8) by (apply bnd_poly; [lia|reflexivity]).
  assert (BE : forall k, bnd (ex_e k) 3) by (intros k; apply ex_e_sample).
  set (c0 := exc_ct ["alice"; "bob"]%string exc_A (exc_X exc_m0 (ex_e 0))). set (c1 := exc_ct ["bob"; "carol"]%string exc_A (exc_X exc_m1 (ex_e 1))).
  destruct (exc_ct_ok ["alice"; "bob"]%string exc_A (exc_X exc_m0 (ex_e 0)) N0) as (W0 & P0 & _). destruct (exc_ct_ok ["bob"; "carol"]%string exc_A (exc_X exc_m1 (ex_e 1)) N1) as (W1 & P1 & _). fold c0 in W0, P0. fold c1 in W1, P1.
  set (rs := map (fun id => (id, exc_rlk id)) exc_names : brlkset 8). set (sks := map (fun id => (id, exc_sk id)) exc_names).
  assert (GR : forall id, In id exc_names -> brlk_get rs id = Ok (exc_rlk id)).
  { intros id H. cbn [In exc_names] in H. repeat (destruct H as [<-|H]; [reflexivity|]). destruct H. }
  assert (KS : keys sks = exc_names) by reflexivity.
  exists c0, c1, rs, sks, (qprod exc mod 17 * 8 + 17 * 3), (qprod exc mod 17 * 8 + 17 * 3).
  split; [exact exc_wf|]. split; [exact exc_div|]. split; [exact ex_ord_ok|]. split; [exact W0|]. split; [exact W1|]. split; [exact P0|]. split; [exact P1|].
  split.
  { exists (crs_entry (ppQ exc) (exc_u 0)), (crs_entry (ppQ exc) (exc_u (-3))), (crs_entry (ppQ exc) (exc_u (-1))). split; [reflexivity|]. split; [reflexivity|]. split; [reflexivity|]. split; [apply exc_crs_entry; lia|].
    intros id Hid. rewrite P0, P1 in Hid. exists (exc_rlk id). split; [apply GR; cbn [In exc_names] in *; tauto|]. apply exc_rlk_ok. }
  split; [intros id Hid; rewrite (GR id Hid); symmetry; apply exc_rlk_ok|].
  split.
  { split; [unfold mwf; rewrite KS; repeat constructor; cbn; intuition discriminate|]. intros id k Hk.
    assert (E : k = exc_sk id) by (revert Hk; unfold sks; generalize exc_names as l'; induction l' as [|y l' IH]; cbn [map mget]; [discriminate|destruct (seq_dec id y); [subst; congruence|exact IH]]).
    subst k. split; [reflexivity|]. intros _. apply exc_sk_val. }
  split; [rewrite P0, KS; intros x Hx; cbn [In exc_names] in *; tauto|]. split; [rewrite P1, KS; intros x Hx; cbn [In exc_names] in *; tauto|].
  split; [apply exc_encodes; [exact N0|exact B0|apply BE]|]. split; [apply exc_encodes; [exact N1|exact B1|apply BE]|].
  rewrite P0, P1. vm_compute. reflexivity.
Qed.
Print Assumptions C40_nonvacuous.
