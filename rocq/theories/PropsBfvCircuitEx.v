(** A case where every hypothesis of C47_end_to_end holds, the noise bound included: alice and bob (and carol, who only registers keys) make all their keys, alice and bob encrypt one
    message each, and the server runs a program with a product, a rotation that is split into two key switches, a conjugation, a sum and a difference. *)
From Verif Require Import Base IdSetModel KeySetModel NumTheory Negacyclic Ntt Word BasisExt BasisExtProofs DecompProofs BasisSpec Rows RlweModel SchemeSpec ExtProd ExtProps KeyGenModel Galois KeyGenProofs CtModel CtSpec CtProofs EncDecProofs EncMsgModel KeySwitchModel Digits KsLoops RotProofs ConjProofs MulProofs Instance PropsEnc PropsRotate PropsKeySwitch BfvModel PropsBfv BfvMulModel BfvConv BfvGadget BfvDig BfvKey BfvCross BfvMulProofs PropsBfvConv PropsBfvMul PropsBfvMulEx BfvCircuit EncFresh PropsBfvCircuit.
From Coq Require Import Znumtheory Setoid Morphisms.
Open Scope Z_scope.

Definition exd_crs : crsT 8 := map (fun i => (i, crs_entry (ppQ exc) (exc_u i))) [0; -1; -2; -3; 1; 2].
Lemma exd_crs_get i : In i [0; -1; -2; -3; 1; 2] -> mget Z.eq_dec exd_crs i = Some (crs_entry (ppQ exc) (exc_u i)) /\ crs_ok (ppQ exc) (crs_entry (ppQ exc) (exc_u i)).
Proof. intros H. cbn [In] in H. split; [|apply exc_crs_entry; lia]. repeat (destruct H as [<-|H]; [reflexivity|]). destruct H. Qed.
Lemma exd_crs_none : mget Z.eq_dec exd_crs 3 = None. Proof. reflexivity. Qed.
Lemma exd_small : small_ok (ppQ exc) 1.
Proof. split; [cbn; lia|]. intros k Hk. cbn in Hk. do 4 (destruct k as [|k]; [vm_compute; discriminate|]). lia. Qed.
Lemma exd_s : is_sample (ppQ exc) 1 ex_s (rows_of (ppQ exc) ex_s).
Proof. apply rows_of_sample; [apply (wf_ppQ exc exc_wf)|]. apply bnd_poly; [lia|reflexivity]. Qed.

Definition exd_rlk (id : string) : bRelinKey 8 :=
  match bGenRelinearizationKey exc exd_crs (exc_sk id) (exc_sk id) exc_smp (fun k => exc_smp (1 + k)) exc_smp (fun k => exc_smp (1 + k)) exc_smp with Ok k => k | Panic => BRLK id nil nil nil nil nil end.
Definition exd_pk (id : string) : publicKey 8 := match GenPublicKey (ppQ exc) exd_crs (exc_sk id) (exc_smp 0) with Ok k => k | Panic => PK id dQP dQP end.
Definition exd_rtk (id : string) (i : Z) : rotKey 8 := match GenRotationKey (ppQ exc) exd_crs i (exc_sk id) exc_smp with Ok k => k | Panic => RTK id i nil end.
Definition exd_cjk (id : string) : conjKey 8 := match GenConjugationKey (ppQ exc) exd_crs (exc_sk id) exc_smp with Ok k => k | Panic => CJK id nil end.
Definition exd_rs : brlkset 8 := map (fun id => (id, exd_rlk id)) exc_names.
Definition exd_rk : rotset 8 := map (fun id => (id, [(1, exd_rtk id 1); (2, exd_rtk id 2)])) exc_names.
Definition exd_ck : conjset 8 := map (fun id => (id, exd_cjk id)) exc_names.
Definition exd_sks : gomap string (secretKey 8) := map (fun id => (id, exc_sk id)) exc_names.

Definition exd_D : Z := qprod exc mod 17 * 8.
Definition exd_pt (m : R 8) : poly 8 := Pol (rows_of (ppQ exc) (exc_X m R0)) false.
Lemma exd_encoded m : bnd m 8 -> bencoded exc exd_D m (exd_pt m).
Proof.
  intros HM. pose proof (wf_ppQ exc exc_wf) as WF.
  assert (SM : forall e : R 8, forall j, (j <= maxLevel (ppQ exc))%nat -> inr (Qi (ppQ exc) j) (row (rows_of (ppQ exc) e) j) /\ eqm (mq (Qi (ppQ exc) j)) (row (rows_of (ppQ exc) e) j) e).
  { intros e. destruct (any_bnd e) as [B HB]. apply (rows_of_sample (ppQ exc) 8 B e WF HB). }
  assert (L : forall j, (j < length (bQ exc))%nat -> (j <= maxLevel (ppQ exc))%nat) by (intros j Hj; change (length (bQ exc)) with 2%nat in Hj; change (maxLevel (ppQ exc)) with 1%nat; lia).
  split; [unfold exd_pt, rows_of; cbn [prows]; rewrite tab_length; reflexivity|]. split; [reflexivity|]. split; [intros j Hj; apply SM; apply L; exact Hj|].
  exists (exc_X m R0), R0, (smul (- (qprod exc mod 17)) m). split; [intros j Hj; apply SM; apply L; exact Hj|]. split.
  - apply R_ext. intros i Hi. unfold exc_X. change (bT exc) with 17. rewrite ?co_smul, ?co_add, ?co_smul, ?co_add, ?co_smul, ?co_R0. pose proof (Z.div_mod (qprod exc) 17 ltac:(lia)) as D.
    rewrite D at 2. ring.
  - unfold exd_D. replace (qprod exc mod 17) with (Z.abs (- (qprod exc mod 17))) at 2 by (vm_compute; reflexivity). apply bnd_smul. exact HM.
Qed.

Definition exd_ins : list (binput 8) :=
  [BIn 8 "alice" exc_m0 (exd_pt exc_m0) (rows_of (ppQ exc) ex_s) (exc_smp 1) (exc_smp 2); BIn 8 "bob" exc_m1 (exd_pt exc_m1) (rows_of (ppQ exc) ex_s) (exc_smp 0) (exc_smp 3)].
(** registers 0 and 1 are the inputs *)
Definition exd_prog : list binstr := [BMul 0 1; BRot 2 (-1); BConj 0; BAdd 3 4; BSub 5 1].

Lemma exd_used i : used_index exd_crs 3 i -> In i [1; 2].
Proof.
  intros [[A _]|(_ & t & T1 & T2 & ->)]; [exfalso; apply A; exact exd_crs_none|]. destruct (Z_lt_le_dec t 2) as [L|L]; [assert (t = 0 \/ t = 1) as [->| ->] by lia; cbn; tauto|].
  rewrite Z.bits_above_log2 in T2; [discriminate|lia|]. change (Z.log2 3) with 1. lia.
Qed.

Lemma exd_keys id : In id exc_names -> bgenerated exc 3 1 exd_crs exd_rs exd_rk exd_ck exd_sks [1; 2] exd_pk id ex_s ex_s.
Proof.
  intros Hid. pose proof (wf_ppQ exc exc_wf) as WF. assert (BE : bbeta exc = 1%nat) by (vm_compute; reflexivity). assert (BS : bnd ex_s 1) by (apply bnd_poly; [lia|reflexivity]).
  exists (rows_of (ppQ exc) ex_s), (rows_of (ppQ exc) ex_s), exc_smp, (fun k => exc_smp (1 + k)), exc_smp, (fun k => exc_smp (1 + k)), exc_smp, (exc_smp 0), ex_e, ex_e, ex_e, (ex_e 0).
  split; [exact exd_s|]. split; [exact exd_s|]. split; [apply exc_e_sample|]. split; [intros k Hk; rewrite BE; do 4 (split; [apply exc_e_sample|]); apply exc_e_sample|].
  assert (SV : mval (ppQ exc) (maxLevel (ppQ exc)) (sk_val (exc_sk id)) (fun _ => ex_s)) by apply exc_sk_val.
  cbv zeta. fold (exc_sk id). split; [|split; [|split; [|split]]].
  - cbn [In exc_names] in Hid. repeat (destruct Hid as [<-|Hid]; [reflexivity|]). destruct Hid.
  - destruct (GenPublicKey_ok (ppQ exc) WF 3 (ex_e 0) (exc_smp 0) exd_crs (crs_entry (ppQ exc) (exc_u 0)) (exc_sk id) ex_s exc_small (exc_e_sample 0) SV) as (pk & A & _); [apply exd_crs_get; cbn; tauto|apply exd_crs_get; cbn; tauto|].
    unfold exd_pk. rewrite A. reflexivity.
  - destruct (C40_keygen 8 exc 3 1 ex_e ex_e ex_e exc_smp (fun k => exc_smp (1 + k)) exc_smp (fun k => exc_smp (1 + k)) exc_smp exd_crs (crs_entry (ppQ exc) (exc_u 0)) (crs_entry (ppQ exc) (exc_u (-3))) (crs_entry (ppQ exc) (exc_u (-1))) (exc_sk id) (exc_sk id) ex_s ex_s exc_wf exc_div exc_small) as (key & A & _); trivial; try (apply exd_crs_get; cbn; tauto).
    + intros k Hk. rewrite BE. do 4 (split; [apply exc_e_sample|]). apply exc_e_sample.
    + transitivity (Ok (exd_rlk id)); [unfold exd_rlk; rewrite A; reflexivity|]. cbn [In exc_names] in Hid. repeat (destruct Hid as [<-|Hid]; [reflexivity|]). destruct Hid.
  - intros i Hi. exists exc_smp, ex_e. split; [intros j _; apply exc_e_sample|].
    destruct (exd_crs_get i) as [G C]; [cbn [In] in *; tauto|].
    destruct (GenRotationKey_ok (ppQ exc) WF 3 ex_e exc_smp exd_crs i (crs_entry (ppQ exc) (exc_u i)) i (crs_entry (ppQ exc) (exc_u i)) (exc_sk id) ex_s exc_small (fun k _ => exc_e_sample k) SV G) as (key & A & _); [destruct Hi as [<-|[<-|[]]]; reflexivity|exact G|exact C|].
    transitivity (Ok (exd_rtk id i)); [unfold exd_rtk; rewrite A; reflexivity|]. clear A. cbn [In exc_names] in Hid. repeat (destruct Hid as [<-|Hid]; [destruct Hi as [<-|[<-|[]]]; reflexivity|]). destruct Hid.
  - exists exc_smp, ex_e. split; [intros j _; apply exc_e_sample|]. destruct (exd_crs_get (-2)) as [G C]; [cbn; tauto|].
    destruct (GenConjugationKey_ok (ppQ exc) WF 3 ex_e exc_smp exd_crs (crs_entry (ppQ exc) (exc_u (-2))) (exc_sk id) ex_s exc_small (fun k _ => exc_e_sample k) SV G C) as (key & A & _).
    transitivity (Ok (exd_cjk id)); [unfold exd_cjk; rewrite A; reflexivity|]. cbn [In exc_names] in Hid. repeat (destruct Hid as [<-|Hid]; [reflexivity|]). destruct Hid.
Qed.

Theorem C47_nonvacuous : wfb 8 exc /\ (length (bQ exc) mod alpha (ppQ exc) = 0)%nat /\ order_ok ex_ord /\ small_ok (ppQ exc) 3 /\ small_ok (ppQ exc) 1 /\
  (forall i, In i ([0; -1; -2; -3] ++ [1; 2]) -> exists c, mget Z.eq_dec exd_crs i = Some c /\ crs_ok (ppQ exc) c) /\
  mwf exd_sks /\ (forall id k, mget seq_dec exd_sks id = Some k -> In id exc_names) /\
  (forall id, In id exc_names -> id <> id0 /\ bgenerated exc 3 1 exd_crs exd_rs exd_rk exd_ck exd_sks [1; 2] exd_pk id ex_s ex_s) /\
  (forall x, In x exd_ins -> In (bi_id x) exc_names /\ binput_ok exc 3 1 exd_D x) /\
  bvalid (length exd_ins) exd_prog /\ brots exd_crs exd_prog [1; 2] /\
  (forall a, (a < length exd_ins + length exd_prog)%nat -> 2 * nth a (bnoise_run exc exd_crs 3 1 exd_prog (map (fun x => [bi_id x]) exd_ins) (map (fun _ => bfresh_noise 8 exc 3 1 exd_D) exd_ins)) 0 < qprod exc) /\
  co (nth 6 (bplain_run exd_prog (map bi_m exd_ins)) R0) 0 <> 0.
Proof.
  assert (B0 : bnd exc_m0 8) by (apply bnd_poly; [lia|reflexivity]). assert (B1 : bnd exc_m1 8) by (apply bnd_poly; [lia|reflexivity]).
  split; [exact exc_wf|]. split; [exact exc_div|]. split; [exact ex_ord_ok|]. split; [exact exc_small|]. split; [exact exd_small|]. split; [|split; [|split; [|split; [|split; [|split; [|split; [|split]]]]]]].
  - intros i Hi. eexists. apply exd_crs_get. exact Hi.
  - assert (KS : keys exd_sks = exc_names) by reflexivity. unfold mwf. rewrite KS. repeat constructor; cbn; intuition discriminate.
  - intros id k H. assert (KS : keys exd_sks = exc_names) by reflexivity. rewrite <- KS. apply (mget_In_keys seq_dec). rewrite H. discriminate.
  - intros id Hid. split; [|apply exd_keys; exact Hid]. cbn [In exc_names] in Hid. intros ->. repeat (destruct Hid as [Hid|Hid]; [discriminate Hid|]). exact Hid.
  - intros x [<-|[<-|[]]]; (split; [cbn; tauto|]); cbn [bi_id bi_m bi_pt bi_su bi_s0 bi_s1].
    + split; [apply exd_encoded; exact B0|]. exists ex_s, (ex_e 1), (ex_e 2). split; [exact exd_s|]. split; apply exc_e_sample.
    + split; [apply exd_encoded; exact B1|]. exists ex_s, (ex_e 0), (ex_e 3). split; [exact exd_s|]. split; apply exc_e_sample.
  - cbn. intuition lia.
  - intros i k j H. cbn [exd_prog In] in H. destruct H as [H|[H|[H|[H|[H|[]]]]]]; try discriminate H. injection H as <- <-. change (-1 mod Z.of_nat (8 / 2)) with 3. intros q NZ U. apply exd_used. exact U.
  - intros a Ha. assert (Ha' : (a < 7)%nat) by exact Ha. clear Ha. do 7 (destruct a as [|a]; [vm_compute; reflexivity|]). lia.
  - vm_compute. discriminate.
Qed.
Print Assumptions C47_nonvacuous.
