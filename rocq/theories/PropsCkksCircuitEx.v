(** C48, continued: operands of equal scale, and a case where every hypothesis of C48_end_to_end holds and the error bound is small. *)
From Flocq Require Import Core BinarySingleNaN.
From Coq Require Import Znumtheory Setoid Morphisms Reals Lra.
From Verif Require Import Base IdSetModel IdSetSpec IdSetProofs KeySetModel NumTheory Negacyclic Ntt Word BasisExt BasisExtProofs DecompProofs BasisSpec Rows RlweModel KeyGenModel SchemeSpec ExtProd ExtProps Galois KeyGenProofs Instance CtModel CtSpec CtProofs EncDecProofs EncMsgModel PropsEnc KeySwitchModel Digits KsLoops RotProofs ConjProofs MulProofs PropsKeySwitch PropsRotate FloatModel CkksFloat CkksModel FloatProofs CkksFloatProofs CkksProofs CkksRescale PropsCkks PropsRescale PropsMulRelin BfvModel PropsBfv BfvMulModel BfvConv BfvKey PropsBfvConv PropsBfvMul PropsBfvMulEx BfvCircuit PropsBfvCircuit PropsBfvCircuitEx BfvCross EncFresh Slots PropsSlots CkksSlots CkksCircuit PropsCkksCircuit PropsCkksScale.
Open Scope Z_scope.

Lemma align_one (a b : f64) : fpos a -> (B2R b <= 3 / 2 * B2R a)%R -> align_factor a b = 1.
Proof.
  intros [Fa Pa] H. unfold align_factor. assert (X : (B2R b / B2R a <= 3 / 2)%R) by (apply Rmult_le_reg_r with (B2R a); [exact Pa|]; unfold Rdiv; rewrite Rmult_assoc, Rinv_l by lra; lra).
  assert (Y : (rnd (B2R b / B2R a) < 2)%R).
  { eapply Rle_lt_trans; [apply (rnd_le _ (3 / 2)); exact X|]. pose proof (rnd_rel (3 / 2) ltac:(lra)) as E. pose proof u_small. apply Rabs_le_inv in E. lra. }
  assert (Zfloor (rnd (B2R b / B2R a)) < 2); [|lia]. apply lt_IZR. eapply Rle_lt_trans; [apply Zfloor_lb|exact Y].
Qed.

(** operands of one scale: AddNew and SubNew need no condition, change no scale and just add the bounds *)
Theorem C48_equal_scales : forall a b, ksc a = ksc b -> fpos (ksc a) ->
  okratio (ksc a) (ksc b) /\ okratio (ksc b) (ksc a) /\ align_factor (ksc a) (ksc b) = 1 /\
  sum_info a b = KI (nodup string_dec (kids a ++ kids b)) (Nat.min (klev a) (klev b)) (ksc a) (kM a + kM b) (kmu a + kmu b) (keps a + keps b).
Proof.
  intros a b E F. pose proof F as [Fa Pa]. assert (R1 : okratio (ksc a) (ksc b)).
  { left. rewrite <- E. unfold Rdiv. rewrite Rinv_r by lra. apply IZR_le. vm_compute. discriminate. }
  assert (AO : align_factor (ksc a) (ksc b) = 1) by (apply align_one; [exact F|rewrite E; rewrite E in Pa; lra]).
  split; [exact R1|]. split; [rewrite E in R1 |- *; exact R1|]. split; [exact AO|].
  assert (AL : forall m e, aligned 1 (B2R (ksc b)) (B2R (ksc b)) m e = e).
  { intros m e. unfold aligned. rewrite E in Pa. replace (1 * B2R (ksc b) / B2R (ksc b) - 1)%R with 0%R by (field; lra). rewrite Rabs_R0. ring. }
  unfold sum_info. rewrite E in AO |- *. rewrite AO. replace (f_max (ksc b) (ksc b)) with (ksc b) by (unfold f_max; destruct (f_ge (ksc b) (ksc b)); reflexivity). rewrite !AL. f_equal. ring.
Qed.
Print Assumptions C48_equal_scales.

Notation xp := (ppQ exc).
Definition exk_scale : f64 := f_of_int 1048576.
Lemma exk_sc : B2R exk_scale = 1048576%R /\ is_finite exk_scale = true.
Proof. destruct (f_of_int_ok 1048576) as [A B]; [lia|]. split; [|exact B]. unfold exk_scale. rewrite A. apply rnd_fmt. apply fmt_int. lia. Qed.
Lemma exk_pos : fpos exk_scale. Proof. destruct exk_sc as [A B]. split; [exact B|]. rewrite A. lra. Qed.
Definition exk_rlk (id : string) : relinKey 8 :=
  match GenRelinearizationKey xp exd_crs (exc_sk id) (exc_sk id) exc_smp exc_smp exc_smp with Ok k => k | Panic => RLK id nil nil nil end.
Definition exk_rs : rlkset 8 := map (fun id => (id, exk_rlk id)) exc_names.

Lemma exk_keys id : In id exc_names -> kgenerated xp 3 1 exd_crs exk_rs exd_rk exd_ck exd_sks [1; 2] exd_pk id ex_s ex_s.
Proof.
  intros Hid. pose proof (wf_ppQ exc exc_wf) as WF.
  exists (rows_of xp ex_s), (rows_of xp ex_s), exc_smp, exc_smp, exc_smp, (exc_smp 0), ex_e, ex_e, ex_e, (ex_e 0).
  split; [exact exd_s|]. split; [exact exd_s|]. split; [apply exc_e_sample|]. split; [intros k Hk; do 2 (split; [apply exc_e_sample|]); apply exc_e_sample|].
  assert (SV : mval xp (maxLevel xp) (sk_val (exc_sk id)) (fun _ => ex_s)) by apply exc_sk_val.
  destruct (exd_keys id Hid) as (ss & sr & sb1 & sd & sb2 & sd2 & sv & se & eb & ed & ev & e & _ & _ & _ & _ & K).
  cbv zeta. fold (exc_sk id). split; [|split; [|split; [|split]]].
  - cbn [In exc_names] in Hid. repeat (destruct Hid as [<-|Hid]; [reflexivity|]). destruct Hid.
  - destruct (GenPublicKey_ok xp WF 3 (ex_e 0) (exc_smp 0) exd_crs (crs_entry xp (exc_u 0)) (exc_sk id) ex_s exc_small (exc_e_sample 0) SV) as (pk & A & _); [apply exd_crs_get; cbn; tauto|apply exd_crs_get; cbn; tauto|].
    unfold exd_pk. rewrite A. reflexivity.
  - destruct (GenRelinearizationKey_ok xp WF 3 ex_e ex_e ex_e exc_smp exc_smp exc_smp exd_crs (crs_entry xp (exc_u 0)) (crs_entry xp (exc_u (-1))) (exc_sk id) (exc_sk id) ex_s ex_s exc_small) as (key & A & _); trivial; try (apply exd_crs_get; cbn; tauto).
    + intros k Hk. do 2 (split; [apply exc_e_sample|]). apply exc_e_sample.
    + transitivity (Ok (exk_rlk id)); [unfold exk_rlk; rewrite A; reflexivity|]. clear - Hid. cbn [In exc_names] in Hid. repeat (destruct Hid as [<-|Hid]; [reflexivity|]). destruct Hid.
  - intros i Hi. exists exc_smp, ex_e. split; [intros j _; apply exc_e_sample|].
    destruct (exd_crs_get i) as [G C]; [cbn [In] in *; tauto|].
    destruct (GenRotationKey_ok xp WF 3 ex_e exc_smp exd_crs i (crs_entry xp (exc_u i)) i (crs_entry xp (exc_u i)) (exc_sk id) ex_s exc_small (fun k _ => exc_e_sample k) SV G) as (key & A & _); [destruct Hi as [<-|[<-|[]]]; reflexivity|exact G|exact C|].
    transitivity (Ok (exd_rtk id i)); [unfold exd_rtk; rewrite A; reflexivity|]. clear A K. cbn [In exc_names] in Hid. repeat (destruct Hid as [<-|Hid]; [destruct Hi as [<-|[<-|[]]]; reflexivity|]). destruct Hid.
  - exists exc_smp, ex_e. split; [intros j _; apply exc_e_sample|]. destruct (exd_crs_get (-2)) as [G C]; [cbn; tauto|].
    destruct (GenConjugationKey_ok xp WF 3 ex_e exc_smp exd_crs (crs_entry xp (exc_u (-2))) (exc_sk id) ex_s exc_small (fun k _ => exc_e_sample k) SV G C) as (key & A & _).
    transitivity (Ok (exd_cjk id)); [unfold exd_cjk; rewrite A; reflexivity|]. clear A K. cbn [In exc_names] in Hid. repeat (destruct Hid as [<-|Hid]; [reflexivity|]). destruct Hid.
Qed.

(** encodings of the slots of two integer polynomials *)
Definition exk_X0 : R 8 := smul 2000 exc_m0.
Definition exk_X1 : R 8 := smul 1900 exc_m1.
Definition exk_z (X : R 8) : slots := fun j => cscale (/ 1048576) (ckks_slot X j).
Definition exk_pt (X : R 8) : poly 8 := Pol (rows_of xp X) false.
Lemma exk_bnd0 : bnd exk_X0 16384.
Proof. assert (H : bnd exk_X0 (Z.abs 2000 * 8)) by (apply bnd_smul; apply bnd_poly; [lia|reflexivity]). intros i Hi. specialize (H i Hi). lia. Qed.
Lemma exk_bnd1 : bnd exk_X1 16384.
Proof. assert (H : bnd exk_X1 (Z.abs 1900 * 8)) by (apply bnd_smul; apply bnd_poly; [lia|reflexivity]). intros i Hi. specialize (H i Hi). lia. Qed.
Lemma exk_near (X : R 8) : bnd X 16384 -> near X (B2R exk_scale) (exk_z X) (/ 8) 0.
Proof.
  intros H j Hj. destruct exk_sc as [-> _]. unfold exk_z. split.
  - replace (csub _ _) with (0%R, 0%R) by (unfold csub; f_equal; ring). unfold cabs. cbn [fst snd]. replace (0 * 0 + 0 * 0)%R with 0%R by ring. rewrite sqrt_0. lra.
  - rewrite cabs_cscale. assert (HN : (0 < 8)%nat) by lia. pose proof (slot_bound HN X 16384 j H) as SB. rewrite Rabs_right by lra. replace (INR 8) with 8%R in SB by (cbn; ring). lra.
Qed.
Lemma exk_rows (X : R 8) j : (j < length (Qm xp))%nat -> inr (Qi xp j) (row (rows_of xp X) j) /\ eqm (mq (Qi xp j)) (row (rows_of xp X) j) X.
Proof. intros Hj. destruct (any_bnd X) as [b HB]. apply (rows_of_sample xp 8 b X (wf_ppQ exc exc_wf) HB). unfold maxLevel. lia. Qed.
Lemma exk_encoded (X : R 8) : bnd X 16384 -> kencoded xp exk_scale 16384 (/ 8) 0 (exk_z X) (exk_pt X).
Proof.
  intros H. assert (LQ : length (rows_of xp X) = length (Qm xp)) by (unfold rows_of; rewrite tab_length; unfold maxLevel; reflexivity).
  split; [|split].
  - unfold wfplain, exk_pt. cbn [prows]. rewrite LQ. split; [change (length (Qm xp)) with 2%nat; lia|]. intros j Hj. apply exk_rows. exact Hj.
  - unfold plevel, exk_pt. cbn [prows]. rewrite LQ. reflexivity.
  - exists X. split; [|split; [exact H|apply exk_near; exact H]]. intros j Hj. unfold pvalue, exk_pt. cbn [pntt prows]. apply exk_rows. change (maxLevel xp) with 1%nat in Hj. change (length (Qm xp)) with 2%nat. lia.
Qed.
Definition exk_ins : list (kinput 8) :=
  [KIn 8 "alice" (exk_z exk_X0) (exk_pt exk_X0) (rows_of xp ex_s) (exc_smp 1) (exc_smp 2); KIn 8 "bob" (exk_z exk_X1) (exk_pt exk_X1) (rows_of xp ex_s) (exc_smp 0) (exc_smp 3)].
(** registers 0 and 1 are the inputs, plaintext 0 is exk_X1 *)
Definition exk_prog : list kinstr := [KMul 0 1; KRot 2 (-1); KConj 0; KDrop 4 1; KAdd 3 5; KPt 0 0; KSub 6 7].
Definition exk_pis : list kpinfo := [KP exk_scale 16384 (/ 8) 0].
Definition exk_pts : list (poly 8 * f64) := [(exk_pt exk_X1, exk_scale)].
Lemma exk_plain p q : nth_error exk_pis p = Some q -> exists x, nth_error exk_pts p = Some x /\ kplainreg xp x q (nth p [exk_z exk_X1] zslots).
Proof.
  destruct p as [|[|p]]; intros H; try discriminate H. injection H as <-. exists (exk_pt exk_X1, exk_scale). split; [reflexivity|]. cbn [nth].
  unfold kplainreg. cbn [fst snd psc pM pmu peps]. split; [reflexivity|]. split; [intros j Hj; apply exk_rows; exact Hj|]. split; [reflexivity|]. split; [exact exk_pos|].
  exists exk_X1. split; [|split; [exact exk_bnd1|apply exk_near; exact exk_bnd1]]. intros j Hj. apply exk_rows. change (maxLevel xp) with 1%nat in Hj. change (length (Qm xp)) with 2%nat. lia.
Qed.

Definition exk_rscale : f64 := rscale xp 1 (f_mul exk_scale exk_scale) 1.
Lemma exk_div : divisions xp 1 (f_mul exk_scale exk_scale) (f_div exk_scale (f_of_int 2)) 1.
Proof. split; [lia|]. split; [intros i Hi; assert (i = 0%nat) by lia; subst i; vm_compute; reflexivity|vm_compute; reflexivity]. Qed.
Lemma exk_drift : fpos (f_mul exk_scale exk_scale) /\ fpos exk_rscale /\ (1048000 <= B2R exk_rscale <= 1048576)%R /\ (Rabs (1048576 * 1048576 / (1048721 * B2R exk_rscale) - 1) <= / 1000000)%R.
Proof.
  destruct exk_sc as [S1 S2]. destruct (f_div_ok' exk_scale (f_of_int 2) S2) as [H1 H2].
  { destruct (f_of_int_ok 2) as [A _]; [lia|]. rewrite A, (rnd_fmt 2) by (apply fmt_int; lia). lra. }
  { destruct (f_of_int_ok 2) as [A _]; [lia|]. rewrite A, (rnd_fmt 2) by (apply fmt_int; lia). rewrite S1, Rabs_right by lra. apply Rle_trans with 1048576%R; [lra|]. unfold big. apply IZR_le. vm_compute. discriminate. }
  assert (HV : B2R (f_div exk_scale (f_of_int 2)) = 524288%R).
  { rewrite H1. destruct (f_of_int_ok 2) as [A _]; [lia|]. rewrite A, (rnd_fmt 2) by (apply fmt_int; lia). rewrite S1. replace (1048576 / 2)%R with (IZR 524288) by lra. apply rnd_fmt. apply fmt_int. lia. }
  destruct (C48_scale_drift 8 xp 1 exk_scale exk_scale (f_div exk_scale (f_of_int 2)) 1 (wf_ppQ exc exc_wf)) as (D1 & D2 & D3); trivial; rewrite ?S1, ?HV; try lra.
  { change (length (Qm xp)) with 2%nat. lia. }
  { exact exk_div. }
  rewrite S1 in D3. replace (prodl (dropped xp 1 1)) with 1048721 in D3 by reflexivity. change (rscale xp 1 (f_mul exk_scale exk_scale) 1) with exk_rscale in *.
  assert (D4 : (Rabs (1048576 * 1048576 / (1048721 * B2R exk_rscale) - 1) <= / 1000000)%R).
  { eapply Rle_trans; [exact D3|]. cbn [pow]. change (2 ^ 50) with 1125899906842624. lra. }
  split; [exact D1|]. split; [exact D2|]. split; [|exact D4]. destruct D2 as [_ P]. apply Rabs_le_inv in D4. set (x := B2R exk_rscale) in *. clearbody x.
  assert (Q : (1048576 * 1048576 / (1048721 * x) * x = 1048576 * 1048576 / 1048721)%R) by (field; lra). set (y := (1048576 * 1048576 / (1048721 * x))%R) in *. clearbody y. nra.
Qed.

(** the description of every register *)
Definition exk_t (id : string) : kinfo := kfresh 8 xp exk_scale 3 1 16384 (/ 8) 0 id.
Notation exk_ab := ["alice"; "bob"]%string.
Definition exk_e2 : Z := 2 * mul_noise 8 xp 1 1 1 (dig_bound xp 1) (dig_bound xp 1) 3 1 + round2 8 1 (prodl (dropped xp 1 1)) 2.
Definition exk_t2 : kinfo := prod_info 8 exk_ab 0 exk_rscale (B2R exk_scale) (B2R exk_scale) (prodl (dropped xp 1 1)) exk_e2
  (kM (exk_t "alice")) (kM (exk_t "bob")) (/ 8) (keps (exk_t "alice")) (/ 8) (keps (exk_t "bob")).
Definition exk_sw (l : nat) : Z := switch_noise 8 xp l (dig_bound xp l) 3 1.
Definition exk_t3 : kinfo := noisy 8 exk_t2 (2 * (2 * exk_sw 0)).
Definition exk_t4 : kinfo := noisy 8 (exk_t "alice") (1 * exk_sw 1).
Definition exk_t5 : kinfo := KI (kids exk_t4) 0 (ksc exk_t4) (kM exk_t4) (kmu exk_t4) (keps exk_t4).
Definition exk_t6 : kinfo := sum_info exk_t3 exk_t5.
Definition exk_t7 : kinfo := prod_info 8 ["alice"%string] 0 exk_rscale (B2R exk_scale) (B2R exk_scale) (prodl (dropped xp 1 1)) (round2 8 1 (prodl (dropped xp 1 1)) 1)
  16384 (kM (exk_t "alice")) (/ 8) 0 (/ 8) (keps (exk_t "alice")).
Definition exk_t8 : kinfo := sum_info exk_t6 exk_t7.

Lemma exk_max1 : f_max exk_rscale exk_scale = exk_scale.
Proof. assert (E : f_ge exk_rscale exk_scale = false) by (vm_compute; reflexivity). unfold f_max. rewrite E. reflexivity. Qed.
Lemma exk_max2 : f_max exk_scale exk_rscale = exk_scale.
Proof. assert (E : f_ge exk_scale exk_rscale = true) by (vm_compute; reflexivity). unfold f_max. rewrite E. reflexivity. Qed.
Lemma exk_align : align_factor exk_rscale exk_scale = 1 /\ align_factor exk_scale exk_rscale = 1 /\ okratio exk_rscale exk_scale /\ okratio exk_scale exk_rscale.
Proof.
  destruct exk_drift as (_ & D2 & D3 & _). destruct exk_sc as [S1 _]. pose proof exk_pos as P. split; [apply align_one; trivial; rewrite S1; lra|]. split; [apply align_one; trivial; rewrite S1; lra|].
  assert (BG : (2 <= IZR (2 ^ 52 - 1))%R) by (apply IZR_le; vm_compute; discriminate). rewrite <- S1 in D3.
  assert (X : forall x y, (0 < x)%R -> (y <= 2 * x)%R -> (y / x <= 2)%R) by (intros x y Hx Hy; apply Rmult_le_reg_r with x; trivial; unfold Rdiv; rewrite Rmult_assoc, Rinv_l by lra; lra).
  split; left; (eapply Rle_trans; [apply X|exact BG]); rewrite S1 in *; lra.
Qed.
Lemma exk_eps0 id : (0 <= keps (exk_t id) <= / 2500)%R.
Proof. unfold exk_t, kfresh. cbn [keps]. destruct exk_sc as [-> _]. replace (INR 8) with 8%R by (cbn; ring). change (3 * (1 + 2 * Z.of_nat 8 * 1)) with 51. lra. Qed.
Lemma exk_M2 : kM exk_t2 = 2068. Proof. vm_compute. reflexivity. Qed.
Lemma exk_inv : (/ 1048576 <= / B2R exk_rscale <= / 1048000)%R.
Proof. destruct exk_drift as (_ & _ & D3 & _). split; apply Rinv_le_contravar; lra. Qed.
Lemma exk_eps2 : (0 <= keps exk_t2 <= / 5000)%R.
Proof.
  unfold exk_t2, prod_info. cbn [keps]. destruct exk_drift as (_ & _ & D3 & D4). destruct exk_sc as [S1 _]. pose proof exk_inv as IV. rewrite S1. replace (prodl (dropped xp 1 1)) with 1048721 by reflexivity.
  replace exk_e2 with 17834422 by (vm_compute; reflexivity). replace (INR 8) with 8%R by (cbn; ring). pose proof (exk_eps0 "alice") as A. pose proof (exk_eps0 "bob") as B. unfold prod_eps.
  set (x := keps (exk_t "alice")) in *. set (y := keps (exk_t "bob")) in *. clearbody x y. set (d := Rabs _) in *. assert (D0 : (0 <= d)%R) by apply Rabs_pos.
  replace (8 * 17834422 / (2 * 1048721 * B2R exk_rscale))%R with (8 * 17834422 / (2 * 1048721) * / B2R exk_rscale)%R by (field; lra). set (v := (/ B2R exk_rscale)%R) in *. clearbody v d.
  assert (XY : (0 <= x * y <= / 2500 * / 2500)%R) by (split; [apply Rmult_le_pos; lra|apply Rmult_le_compat; lra]). set (p := (x * y)%R) in *. clearbody p.
  set (q := (/ 8 * y + / 8 * x + p)%R) in *. assert (Q : (0 <= q <= / 9000)%R) by (unfold q; lra). clearbody q. assert (DQ : (0 <= d * (/ 8 * / 8 + q) <= / 1000000 * 1)%R) by (split; [apply Rmult_le_pos; lra|apply Rmult_le_compat; lra]). lra.
Qed.
Lemma exk_eps3 : (0 <= keps exk_t3 <= / 2000)%R.
Proof.
  unfold exk_t3, noisy. cbn [keps]. pose proof exk_eps2 as E. change (ksc exk_t2) with exk_rscale. replace (2 * (2 * exk_sw 0)) with 36 by (vm_compute; reflexivity). replace (INR 8) with 8%R by (cbn; ring). pose proof exk_inv as IV.
  unfold Rdiv. set (x := keps exk_t2) in *. set (v := (/ B2R exk_rscale)%R) in *. clearbody x v. lra.
Qed.
Lemma exk_eps5 : (0 <= keps exk_t5 <= / 2000)%R.
Proof.
  unfold exk_t5, exk_t4, noisy. cbn [keps]. pose proof (exk_eps0 "alice") as E. change (ksc (exk_t "alice")) with exk_scale. destruct exk_sc as [-> _]. replace (1 * exk_sw 1) with 9 by (vm_compute; reflexivity). replace (INR 8) with 8%R by (cbn; ring).
  set (x := keps _) in *. clearbody x. lra.
Qed.
Lemma exk_eps7 : (0 <= keps exk_t7 <= / 5000)%R.
Proof.
  unfold exk_t7, prod_info. cbn [keps]. destruct exk_drift as (_ & _ & D3 & D4). destruct exk_sc as [S1 _]. pose proof exk_inv as IV. rewrite S1. replace (round2 8 1 (prodl (dropped xp 1 1)) 1) with 9438480 by (vm_compute; reflexivity). replace (prodl (dropped xp 1 1)) with 1048721 by reflexivity.
  replace (INR 8) with 8%R by (cbn; ring). pose proof (exk_eps0 "alice") as A. unfold prod_eps.
  set (x := keps (exk_t "alice")) in *. clearbody x. set (d := Rabs _) in *. assert (D0 : (0 <= d)%R) by apply Rabs_pos.
  replace (8 * 9438480 / (2 * 1048721 * B2R exk_rscale))%R with (8 * 9438480 / (2 * 1048721) * / B2R exk_rscale)%R by (field; lra). set (v := (/ B2R exk_rscale)%R) in *. clearbody v d.
  set (q := (/ 8 * x + / 8 * 0 + 0 * x)%R) in *. assert (Q : (0 <= q <= / 9000)%R) by (unfold q; lra). clearbody q. assert (DQ : (0 <= d * (/ 8 * / 8 + q) <= / 1000000 * 1)%R) by (split; [apply Rmult_le_pos; lra|apply Rmult_le_compat; lra]). lra.
Qed.
Lemma exk_aligned sc mu eps : sc = exk_scale \/ sc = exk_rscale -> (0 <= eps <= / 500)%R -> (0 <= mu <= 1)%R -> (0 <= aligned 1 (B2R sc) 1048576 mu eps <= eps + / 1000)%R.
Proof.
  intros [-> | ->] E M; unfold aligned; destruct exk_drift as (_ & _ & D3 & _); destruct exk_sc as [S1 _].
  - rewrite S1. replace (1 * 1048576 / 1048576 - 1)%R with 0%R by field. rewrite Rabs_R0. lra.
  - set (x := B2R exk_rscale) in *. clearbody x. assert (A : (0 <= Rabs (1 * x / 1048576 - 1) <= / 1500)%R) by (split; [apply Rabs_pos|apply Rabs_le; lra]). set (d := Rabs _) in *. clearbody d. nra.
Qed.
Lemma exk_6 : kM exk_t6 = 18548 /\ ksc exk_t6 = exk_scale /\ kmu exk_t6 = (/ 8 * / 8 + / 8)%R /\ (0 <= keps exk_t6 <= / 600)%R.
Proof.
  destruct exk_align as (A1 & A2 & _). unfold exk_t6, sum_info. cbn [kM ksc kmu keps]. change (ksc exk_t3) with exk_rscale. change (ksc exk_t5) with exk_scale. rewrite A1, A2, exk_max1.
  split; [replace (kM exk_t3) with 2104 by (vm_compute; reflexivity); replace (kM exk_t5) with 16444 by (vm_compute; reflexivity); reflexivity|]. split; [reflexivity|]. split; [reflexivity|].
  destruct exk_sc as [S1 _]. pose proof (exk_aligned exk_rscale (kmu exk_t3) (keps exk_t3) (or_intror eq_refl)) as P3. change (kmu exk_t3) with (/ 8 * / 8)%R in *. change (kmu exk_t5) with (/ 8)%R.
  pose proof exk_eps3 as E3. pose proof exk_eps5 as E5. specialize (P3 ltac:(lra) ltac:(lra)).
  assert (X : aligned 1 (B2R exk_scale) (B2R exk_scale) (/ 8) (keps exk_t5) = keps exk_t5) by (unfold aligned; rewrite S1; replace (1 * 1048576 / 1048576 - 1)%R with 0%R by field; rewrite Rabs_R0; ring).
  rewrite X. rewrite S1. unfold aligned in *. clear X.
  assert (Y : (Rabs (1 * B2R exk_rscale / 1048576 - 1) * (/ 8 * / 8 + keps exk_t3) <= / 2000)%R); [|lra].
  destruct exk_drift as (_ & _ & D3 & _). set (x := B2R exk_rscale) in *. clearbody x. assert (A : (0 <= Rabs (1 * x / 1048576 - 1) <= / 1500)%R) by (split; [apply Rabs_pos|apply Rabs_le; lra]).
  set (d := Rabs _) in *. clearbody d. set (e := keps exk_t3) in *. clearbody e. nra.
Qed.
Lemma exk_8 : klev exk_t8 = 0%nat /\ kM exk_t8 = 20606 /\ ksc exk_t8 = exk_scale /\ (0 <= keps exk_t8 <= / 250)%R.
Proof.
  destruct exk_align as (A1 & A2 & _). destruct exk_6 as (M6 & S6 & U6 & E6). unfold exk_t8, sum_info. cbn [kM ksc kmu keps klev]. change (ksc exk_t7) with exk_rscale. rewrite S6, M6, U6, A1, A2, exk_max2.
  split; [reflexivity|]. split; [replace (kM exk_t7) with 2058 by (vm_compute; reflexivity); reflexivity|].
  split; [reflexivity|]. destruct exk_sc as [S1 _]. rewrite S1. change (kmu exk_t7) with (/ 8 * / 8)%R.
  pose proof (exk_aligned exk_rscale (/ 8 * / 8) (keps exk_t7) (or_intror eq_refl)) as P7. pose proof exk_eps7 as E7. specialize (P7 ltac:(lra) ltac:(lra)).
  pose proof (exk_aligned exk_scale (/ 8 * / 8 + / 8) (keps exk_t6) (or_introl eq_refl)) as P6. specialize (P6 ltac:(lra) ltac:(lra)). rewrite S1 in P6. lra.
Qed.
Lemma exk_steps : ksteps 8 xp exk_scale exd_crs 3 1 exk_pis (map (fun x => kfresh 8 xp exk_scale 3 1 16384 (/ 8) 0 (ki_id x)) exk_ins) exk_prog
  [exk_t "alice"; exk_t "bob"; exk_t2; exk_t3; exk_t4; exk_t5; exk_t6; exk_t7; exk_t8].
Proof.
  change (map _ exk_ins) with [exk_t "alice"; exk_t "bob"]. destruct exk_drift as (D1 & D2 & _). destruct exk_align as (A1 & A2 & R1 & R2).
  unfold exk_prog.
  apply (ksteps_cons _ _ _ _ _ _ _ _ _ exk_t2). { apply (kstep_mul 8 xp exk_scale exd_crs 3 1 exk_pis [exk_t "alice"; exk_t "bob"] 0 1 (exk_t "alice") (exk_t "bob") 1); trivial; try reflexivity; exact exk_div. }
  cbn [app]. apply (ksteps_cons _ _ _ _ _ _ _ _ _ exk_t3). { apply (kstep_rot 8 xp exk_scale exd_crs 3 1 exk_pis [exk_t "alice"; exk_t "bob"; exk_t2] 2 (-1) exk_t2). reflexivity. }
  cbn [app]. apply (ksteps_cons _ _ _ _ _ _ _ _ _ exk_t4). { apply (kstep_conj 8 xp exk_scale exd_crs 3 1 exk_pis _ 0 (exk_t "alice")); reflexivity. }
  cbn [app]. apply (ksteps_cons _ _ _ _ _ _ _ _ _ exk_t5). { apply (kstep_drop 8 xp exk_scale exd_crs 3 1 exk_pis _ 4 1 exk_t4); [reflexivity|]. change (klev exk_t4) with 1%nat. lia. }
  cbn [app]. apply (ksteps_cons _ _ _ _ _ _ _ _ _ exk_t6). { apply (kstep_add 8 xp exk_scale exd_crs 3 1 exk_pis _ 3 5 exk_t3 exk_t5); [reflexivity|reflexivity|exact R1|exact R2]. }
  cbn [app]. apply (ksteps_cons _ _ _ _ _ _ _ _ _ exk_t7). { apply (kstep_pt 8 xp exk_scale exd_crs 3 1 exk_pis _ 0 0 (exk_t "alice") (KP exk_scale 16384 (/ 8) 0) 1); trivial; try reflexivity; exact exk_div. }
  cbn [app]. apply (ksteps_cons _ _ _ _ _ _ _ _ _ exk_t8). { apply (kstep_sub 8 xp exk_scale exd_crs 3 1 exk_pis _ 6 7 exk_t6 exk_t7); [reflexivity|reflexivity| |]; rewrite (proj1 (proj2 exk_6)); [exact R2|exact R1]. }
  cbn [app]. apply ksteps_nil.
Qed.

Theorem C48_nonvacuous : wfp 8 xp /\ fpos exk_scale /\ order_ok ex_ord /\ small_ok xp 3 /\ small_ok xp 1 /\ pool_ok xp (NewEvaluator xp : evalst 8) /\
  (forall i, In i ([0; -1; -2] ++ [1; 2]) -> exists c, mget Z.eq_dec exd_crs i = Some c /\ crs_ok xp c) /\
  mwf exd_sks /\ (forall id k, mget seq_dec exd_sks id = Some k -> In id exc_names) /\
  (forall id, In id exc_names -> id <> id0 /\ kgenerated xp 3 1 exd_crs exk_rs exd_rk exd_ck exd_sks [1; 2] exd_pk id ex_s ex_s) /\
  (forall x, In x exk_ins -> In (ki_id x) exc_names /\ kinput_ok xp exk_scale 3 1 16384 (/ 8) 0 x) /\
  (forall p q, nth_error exk_pis p = Some q -> exists x, nth_error exk_pts p = Some x /\ kplainreg xp x q (nth p [exk_z exk_X1] zslots)) /\
  krots exd_crs exk_prog [1; 2] /\
  exists ts' t, ksteps 8 xp exk_scale exd_crs 3 1 exk_pis (map (fun x => kfresh 8 xp exk_scale 3 1 16384 (/ 8) 0 (ki_id x)) exk_ins) exk_prog ts' /\ nth_error ts' 8 = Some t /\
    fits xp t /\ (keps t <= / 250)%R.
Proof.
  split; [apply (wf_ppQ exc exc_wf)|]. split; [exact exk_pos|]. split; [exact ex_ord_ok|]. split; [exact exc_small|]. split; [exact exd_small|]. split; [|split; [|split; [|split; [|split; [|split; [|split; [|split]]]]]]].
  - split; [|reflexivity]. split; [|split]; [unfold NewEvaluator; cbn [ctxtPool]; repeat constructor; cbn; intuition|left; reflexivity|intros x [<-|[]]; split; reflexivity].
  - intros i Hi. eexists. apply exd_crs_get. cbn [app In] in *. tauto.
  - assert (KS : keys exd_sks = exc_names) by reflexivity. unfold mwf. rewrite KS. repeat constructor; cbn; intuition discriminate.
  - intros id k H. assert (KS : keys exd_sks = exc_names) by reflexivity. rewrite <- KS. apply (mget_In_keys seq_dec). rewrite H. discriminate.
  - intros id Hid. split; [|apply exk_keys; exact Hid]. cbn [In exc_names] in Hid. intros ->. repeat (destruct Hid as [Hid|Hid]; [discriminate Hid|]). exact Hid.
  - intros x [<-|[<-|[]]]; (split; [cbn; tauto|]); unfold kinput_ok; cbn [ki_id ki_z ki_pt ki_su ki_s0 ki_s1].
    + split; [apply exk_encoded; exact exk_bnd0|]. exists ex_s, (ex_e 1), (ex_e 2). split; [exact exd_s|]. split; apply exc_e_sample.
    + split; [apply exk_encoded; exact exk_bnd1|]. exists ex_s, (ex_e 0), (ex_e 3). split; [exact exd_s|]. split; apply exc_e_sample.
  - exact exk_plain.
  - intros i k j H. cbn [exk_prog In] in H. destruct H as [H|[H|[H|[H|[H|[H|[H|[]]]]]]]]; try discriminate H. injection H as <- <-. change (-1 mod Z.of_nat (8 / 2)) with 3. intros q NZ U. apply exd_used. exact U.
  - destruct exk_8 as (L8 & M8 & _ & E8). exists [exk_t "alice"; exk_t "bob"; exk_t2; exk_t3; exk_t4; exk_t5; exk_t6; exk_t7; exk_t8], exk_t8. split; [exact exk_steps|]. split; [reflexivity|]. split; [left; rewrite L8, M8; vm_compute; reflexivity|apply E8].
Qed.
Print Assumptions C48_nonvacuous.
