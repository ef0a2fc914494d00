(** C61, continued: a program with calls in place where every hypothesis of C61_end_to_end holds and the error bound is small. *)
From Flocq Require Import Core BinarySingleNaN.
From Coq Require Import Znumtheory Setoid Morphisms Reals Lra.
From Verif Require Import Base IdSetModel IdSetSpec IdSetProofs KeySetModel NumTheory Negacyclic Ntt Word BasisExt BasisExtProofs DecompProofs BasisSpec Rows RlweModel KeyGenModel SchemeSpec ExtProd ExtProps Galois KeyGenProofs Instance CtModel CtSpec CtProofs EncDecProofs EncMsgModel PropsEnc KeySwitchModel Digits KsLoops RotProofs ConjProofs MulProofs PropsKeySwitch PropsRotate FloatModel CkksFloat CkksModel FloatProofs CkksFloatProofs CkksProofs CkksRescale PropsCkks PropsRescale PropsConst PropsMulRelin BfvModel PropsBfv BfvMulModel BfvConv BfvKey PropsBfvConv PropsBfvMul PropsBfvMulEx BfvCircuit PropsBfvCircuit PropsBfvCircuitEx BfvCross EncFresh Slots PropsSlots CkksSlots CkksCircuit PropsCkksCircuit PropsCkksScale PropsCkksCircuitEx HeapEval CkksFull PropsCkksFull.
Open Scope Z_scope.

Definition exf_x : f64 := f_div (f_of_int 3) (f_of_int 4).
Lemma int_val z : Z.abs z < 2 ^ 53 -> B2R (f_of_int z) = IZR z /\ is_finite (f_of_int z) = true.
Proof. intros H. destruct (f_of_int_ok z) as [A B]; [lia|]. split; [|exact B]. rewrite A. apply rnd_fmt. apply fmt_int. exact H. Qed.
Lemma exf_val : B2R exf_x = (3 / 4)%R /\ is_finite exf_x = true.
Proof.
  assert (E : B2SF exf_x = SpecFloat.S754_finite false 6755399441055744 (-53)) by (vm_compute; reflexivity).
  split; [|rewrite <- is_finite_SF_B2SF, E; reflexivity]. rewrite <- SF2R_B2SF, E. cbn [SF2R cond_Zopp]. unfold F2R. cbn [Fnum Fexp bpow]. change (Z.pow_pos radix2 53) with 9007199254740992. lra.
Qed.
Lemma exf_rnd : (786540 <= rnd (1048721 * (3 / 4)) <= 786541)%R.
Proof. rewrite <- (rnd_fmt 786540) at 1 by (apply fmt_int; lia). rewrite <- (rnd_fmt 786541) by (apply fmt_int; lia). split; apply rnd_le; lra. Qed.
Notation exf_q := (f_of_int 1048721).
Lemma exf_mul : fpos (f_mul exk_scale exf_q) /\ B2R (f_mul exk_scale exf_q) = (1048576 * 1048721)%R.
Proof.
  assert (S : B2SF (f_mul exk_scale exf_q) = SpecFloat.S754_finite false 4504222397628416 (-12)) by (vm_compute; reflexivity).
  assert (E : B2R (f_mul exk_scale exf_q) = (1048576 * 1048721)%R) by (rewrite <- SF2R_B2SF, S; cbn [SF2R cond_Zopp]; unfold F2R; cbn [Fnum Fexp bpow]; change (Z.pow_pos radix2 12) with 4096; lra).
  split; [|exact E]. split; [rewrite <- is_finite_SF_B2SF, S; reflexivity|]. rewrite E. lra.
Qed.
Lemma exf_rscale : rscale xp 1 (f_mul exk_scale exf_q) 1 = exk_scale.
Proof. apply B2SF_inj. vm_compute. reflexivity. Qed.
Lemma exf_div : divisions xp 1 (f_mul exk_scale exf_q) (f_div exk_scale (f_of_int 2)) 1.
Proof. split; [lia|]. split; [intros i Hi; assert (i = 0%nat) by lia; subst i; vm_compute; reflexivity|vm_compute; reflexivity]. Qed.

(** 0: alice, 1: bob; a copy of 0 is multiplied by 3/4 and rescaled in place, the hoisted product of 0 and 1 is register 3, then 1 is multiplied by -3 and dropped to level 0 in place, and added to 2 *)
Definition exf_prog : list ginstr := [GCopy 0; GConst 2 (CFloat exf_x) 2; GRescale 2 exk_scale 2; GMulH 0 1; GConst 1 (CInt (-3)) 1; GDrop 1 1; GCall (KAdd 2 1)].
Definition exf_1 : kinfo := frac_info xp (exk_t "alice") 1 (B2R exf_x) 786542.
Definition exf_2 : kinfo := div_info 8 xp 1 exf_1 1.
Definition exf_3 : kinfo := int_info (exk_t "bob") 1 (-3).
Definition exf_4 : kinfo := KI (kids exf_3) 0 (ksc exf_3) (kM exf_3) (kmu exf_3) (keps exf_3).
Definition exf_5 : kinfo := sum_info exf_2 exf_4.
Lemma exf_sc2 : ksc exf_2 = exk_scale.
Proof. unfold exf_2, div_info. cbn [ksc]. exact exf_rscale. Qed.

Lemma exf_steps : gsteps 8 xp exk_scale exd_crs 3 1 nil (map (fun x => kfresh 8 xp exk_scale 3 1 16384 (/ 8) 0 (ki_id x)) exk_ins) exf_prog
  [exk_t "alice"; exf_4; exf_2; exk_t2; exf_5].
Proof.
  change (map _ exk_ins) with [exk_t "alice"; exk_t "bob"]. destruct exk_drift as (D1 & D2 & _). destruct exf_val as [XV XF]. destruct exf_mul as [MF MV].
  unfold exf_prog.
  eapply gsteps_cons. { apply (gstep_copy 8 xp exk_scale exd_crs 3 1 nil _ 0 (exk_t "alice")). reflexivity. }
  cbn [app]. eapply gsteps_cons.
  { apply (gstep_frac 8 xp exk_scale exd_crs 3 1 nil [exk_t "alice"; exk_t "bob"; exk_t "alice"] 2 (CFloat exf_x) 2 (exk_t "alice") (exk_t "alice") exf_x 786542); try reflexivity; trivial.
    - intros y. reflexivity.
    - left. reflexivity.
    - rewrite XV. rewrite Rabs_right by lra. apply Rlt_le_trans with 1%R; [lra|]. apply IZR_le. vm_compute. discriminate.
    - intros z. rewrite XV. intros E. assert (E' : IZR 3 = IZR (4 * z)) by (rewrite mult_IZR; lra). apply eq_IZR in E'. lia.
    - change (f_of_int (mq (Qi xp (klev (exk_t "alice"))))) with exf_q. destruct (int_val 1048721 ltac:(lia)) as [A _]. rewrite A, XV. pose proof exf_rnd. rewrite Rabs_right by lra. lra. }
  cbn [upd]. eapply gsteps_cons.
  { apply (gstep_rescale 8 xp exk_scale exd_crs 3 1 nil _ 2 exk_scale 1 exf_1); try reflexivity; trivial.
    - exact exf_div.
    - change (klev exf_1) with 1%nat. change (ksc exf_1) with (f_mul exk_scale exf_q). rewrite exf_rscale. exact exk_pos. }
  cbn [upd]. fold exf_2. eapply gsteps_cons.
  { apply (gstep_mulh 8 xp exk_scale exd_crs 3 1 nil _ 0 1 exk_t2). apply (kstep_mul 8 xp exk_scale exd_crs 3 1 nil [exk_t "alice"; exk_t "bob"; exf_2] 0 1 (exk_t "alice") (exk_t "bob") 1); trivial; try reflexivity; exact exk_div. }
  cbn [app]. eapply gsteps_cons.
  { apply (gstep_int 8 xp exk_scale exd_crs 3 1 nil [exk_t "alice"; exk_t "bob"; exf_2; exk_t2] 1 (CInt (-3)) 1 (exk_t "bob") (exk_t "bob") (-3)); try reflexivity; trivial; [intros y; reflexivity|left; reflexivity]. }
  cbn [upd]. eapply gsteps_cons.
  { apply (gstep_drop 8 xp exk_scale exd_crs 3 1 nil _ 1 1 exf_3); [reflexivity|]. cbn. lia. }
  cbn [upd]. eapply gsteps_cons.
  { apply gstep_call. destruct (C48_equal_scales exf_2 exf_4) as (E1 & E2 & _); [rewrite exf_sc2; reflexivity|rewrite exf_sc2; exact exk_pos|].
    apply (kstep_add 8 xp exk_scale exd_crs 3 1 nil _ 2 1 exf_2 exf_4); [reflexivity|reflexivity|exact E1|exact E2]. }
  cbn [app]. apply gsteps_nil.
Qed.
Lemma exf_final : klev exf_5 = 0%nat /\ kM exf_5 = 61635 /\ (0 <= keps exf_5 <= / 500)%R.
Proof.
  destruct (C48_equal_scales exf_2 exf_4) as (_ & _ & _ & ES); [rewrite exf_sc2; reflexivity|rewrite exf_sc2; exact exk_pos|].
  unfold exf_5. rewrite ES. cbn [klev kM keps]. split; [reflexivity|]. split; [vm_compute; reflexivity|].
  pose proof (exk_eps0 "alice") as A. pose proof (exk_eps0 "bob") as B. destruct exf_val as [XV _]. destruct exf_mul as [_ MV]. destruct exk_sc as [S1 _]. pose proof exf_rnd as ER.
  assert (E4 : keps exf_4 = (3 * keps (exk_t "bob"))%R) by (unfold exf_4, exf_3, int_info; cbn [keps]; replace (IZR (-3)) with (- (3))%R by lra; rewrite Rabs_Ropp, Rabs_right by lra; reflexivity).
  assert (E1 : (0 <= keps exf_1 <= 3 / 4 * keps (exk_t "alice") + / 100000)%R).
  { unfold exf_1, frac_info. cbn [keps ksc kmu]. change (mq (Qi xp 1)) with 1048721. change (ksc (exk_t "alice")) with exk_scale. change (kmu (exk_t "alice")) with (/ 8)%R. destruct (int_val 1048721 ltac:(lia)) as [AQ _]. rewrite AQ, MV, XV, S1, (Rabs_right (3 / 4)) by lra.
    set (y := rnd (1048721 * (3 / 4))) in *. set (e := keps (exk_t "alice")) in *. clearbody y e.
    assert (X : (0 <= Rabs (y * 1048576 / (1048576 * 1048721) - 3 / 4) <= / 1000000)%R) by (split; [apply Rabs_pos|apply Rabs_le; split; lra]). set (d := Rabs _) in *. clearbody d.
    assert (Y : (0 <= (d + 1048576 / (1048576 * 1048721)) * (/ 8 + e) <= / 400000 * 1)%R) by (split; [apply Rmult_le_pos; lra|apply Rmult_le_compat; lra]). lra. }
  assert (E2 : (0 <= keps exf_2 <= keps exf_1 + / 10000)%R).
  { unfold exf_2, div_info. cbn [keps ksc kmu]. change (klev exf_1) with 1%nat. change (ksc exf_1) with (f_mul exk_scale exf_q). rewrite exf_rscale, MV, S1. replace (prodl (dropped xp 1 1)) with 1048721 by reflexivity. replace (round2 8 1 1048721 (length (kids exf_1))) with 9438480 by (vm_compute; reflexivity).
    replace (INR 8) with 8%R by (cbn; ring). set (e := keps exf_1) in *. clearbody e. replace (1048576 * 1048721 / (1048721 * 1048576) - 1)%R with 0%R by lra. rewrite Rabs_R0. lra. }
  rewrite E4. lra.
Qed.

Theorem C61_nonvacuous : wfp 8 xp /\ fpos exk_scale /\ order_ok ex_ord /\ small_ok xp 3 /\ small_ok xp 1 /\
  (forall i, In i ([0; -1; -2] ++ [1; 2]) -> exists c, mget Z.eq_dec exd_crs i = Some c /\ crs_ok xp c) /\
  mwf exd_sks /\ (forall id k, mget seq_dec exd_sks id = Some k -> In id exc_names) /\
  (forall id, In id exc_names -> id <> id0 /\ kgenerated xp 3 1 exd_crs exk_rs exd_rk exd_ck exd_sks [1; 2] exd_pk id ex_s ex_s) /\
  (forall x, In x exk_ins -> In (ki_id x) exc_names /\ kinput_ok xp exk_scale 3 1 16384 (/ 8) 0 x) /\
  grots exd_crs exf_prog [1; 2] /\
  exists ts' t, gsteps 8 xp exk_scale exd_crs 3 1 nil (map (fun x => kfresh 8 xp exk_scale 3 1 16384 (/ 8) 0 (ki_id x)) exk_ins) exf_prog ts' /\ nth_error ts' 4 = Some t /\ fits xp t /\ (keps t <= / 500)%R /\
  (* the register stands for 3/4 of the first input minus three times the second *)
  forall q, nth 4 (gplain_run 8 nil exf_prog (map ki_z exk_ins)) zslots q = cadd (cscale (3 / 4) (exk_z exk_X0 q)) (cscale (-3) (exk_z exk_X1 q)).
Proof.
  destruct C48_nonvacuous as (A1 & A2 & A3 & A4 & A5 & _ & A6 & A7 & A8 & A9 & A10 & _).
  split; [exact A1|]. split; [exact A2|]. split; [exact A3|]. split; [exact A4|]. split; [exact A5|]. split; [exact A6|]. split; [exact A7|]. split; [exact A8|]. split; [exact A9|]. split; [exact A10|]. split.
  - intros a k j [H|H]; cbn [exf_prog In] in H; destruct H as [H|[H|[H|[H|[H|[H|[H|[]]]]]]]]; discriminate H.
  - destruct exf_final as (L & M & E). exists [exk_t "alice"; exf_4; exf_2; exk_t2; exf_5], exf_5. split; [exact exf_steps|]. split; [reflexivity|]. split; [left; rewrite L, M; vm_compute; reflexivity|]. split; [apply E|].
    intros q. cbn [gplain_run fold_left exf_prog gplain exk_ins map ki_z app upd nth kplain cval]. rewrite (proj1 exf_val). reflexivity.
Qed.
Print Assumptions C61_nonvacuous.
