(** C57: a concrete program that hoists, and meets the hypotheses of C57_end_to_end. *)
From Flocq Require Import Core BinarySingleNaN.
From Coq Require Import Reals Lra.
From Verif Require Import Base IdSetModel IdSetSpec IdSetProofs KeySetModel NumTheory Negacyclic Ntt Word BasisExt BasisExtProofs DecompProofs BasisSpec Rows RlweModel KeyGenModel SchemeSpec ExtProd ExtProps Galois KeyGenProofs Instance CtModel CtSpec CtProofs EncDecProofs EncMsgModel PropsEnc KeySwitchModel Digits KsLoops RotProofs ConjProofs MulProofs PropsKeySwitch PropsRotate FloatModel CkksFloat CkksModel FloatProofs CkksFloatProofs CkksProofs CkksRescale PropsCkks PropsRescale PropsMulRelin BfvModel PropsBfv BfvMulModel BfvConv BfvKey PropsBfvConv PropsBfvMul PropsBfvMulEx BfvCircuit PropsBfvCircuit PropsBfvCircuitEx BfvCross EncFresh Slots PropsSlots CkksSlots CkksCircuit PropsCkksCircuit PropsCkksScale PropsCkksCircuitEx CkksHoist PropsCkksHoist.
Open Scope Z_scope.

Definition exh_prog : list xinstr := [XForm 0; XForm 1; XMul 0 1 0 1; XForm 2; XRot 2 1 2; XCopy 3].
Definition exh_t3 : kinfo := noisy 8 exk_t2 (1 * (2 * exk_sw 0)).
Definition exh_t4 : kinfo := KI (kids exh_t3) 0 (ksc exh_t3) (kM exh_t3) (kmu exh_t3) (keps exh_t3).
Theorem C57_nonvacuous : wfp 8 xp /\ fpos exk_scale /\ order_ok ex_ord /\ small_ok xp 3 /\ small_ok xp 1 /\ pool_ok xp (NewEvaluator xp : evalst 8) /\
  (forall i, In i ([0; -1; -2] ++ [1; 2]) -> exists c, mget Z.eq_dec exd_crs i = Some c /\ crs_ok xp c) /\
  mwf exd_sks /\ (forall id k, mget seq_dec exd_sks id = Some k -> In id exc_names) /\
  (forall id, In id exc_names -> id <> id0 /\ kgenerated xp 3 1 exd_crs exk_rs exd_rk exd_ck exd_sks [1; 2] exd_pk id ex_s ex_s) /\
  (forall x, In x exk_ins -> In (ki_id x) exc_names /\ kinput_ok xp exk_scale 3 1 16384 (/ 8) 0 x) /\
  krots exd_crs (xerase exh_prog) [1; 2] /\ xwell exd_crs (length exk_ins) nil exh_prog /\
  exists ts' t, ksteps 8 xp exk_scale exd_crs 3 1 nil (map (fun x => kfresh 8 xp exk_scale 3 1 16384 (/ 8) 0 (ki_id x)) exk_ins) (xerase exh_prog) ts' /\ nth_error ts' 4 = Some t /\ fits xp t.
Proof.
  destruct C48_nonvacuous as (A1 & A2 & A3 & A4 & A5 & A6 & A7 & A8 & A9 & A10 & A11 & _).
  repeat (split; [assumption|]).
  assert (C1 : mget Z.eq_dec exd_crs 1 <> None) by (destruct (A7 1) as (c & G & _); [cbn; tauto|rewrite G; discriminate]).
  split; [|split].
  - intros i k j H. change (xerase exh_prog) with [KMul 0 1; KRot 2 1; KDrop 3 0] in H. destruct H as [H|[H|[H|[]]]]; try discriminate H. injection H as <- <-. change (1 mod Z.of_nat (8 / 2)) with 1.
    intros q NZ [[_ ->]|(N0 & _)]; [cbn; tauto|]. contradiction.
  - cbn [xwell exh_prog]. split; [cbn; lia|]. split; [cbn; lia|]. split; [reflexivity|]. split; [reflexivity|]. split; [cbn; lia|]. split; [reflexivity|]. split; [|exact Logic.I]. right. exact C1.
  - change (xerase exh_prog) with [KMul 0 1; KRot 2 1; KDrop 3 0]. exists [exk_t "alice"; exk_t "bob"; exk_t2; exh_t3; exh_t4], exh_t4. split; [|split; [reflexivity|left; vm_compute; reflexivity]].
    change (map _ exk_ins) with [exk_t "alice"; exk_t "bob"]. destruct exk_drift as (D1 & D2 & _).
    apply (ksteps_cons _ _ _ _ _ _ _ _ _ exk_t2). { apply (kstep_mul 8 xp exk_scale exd_crs 3 1 nil [exk_t "alice"; exk_t "bob"] 0 1 (exk_t "alice") (exk_t "bob") 1); trivial; try reflexivity; exact exk_div. }
    cbn [app]. apply (ksteps_cons _ _ _ _ _ _ _ _ _ exh_t3).
    { assert (RC : rot_count exd_crs (1 mod Z.of_nat (8 / 2)) = 1).
      { change (1 mod Z.of_nat (8 / 2)) with 1. unfold rot_count. change (1 =? 0) with false. cbv iota. destruct (mget Z.eq_dec exd_crs 1); [reflexivity|contradiction]. }
      assert (X : exh_t3 = noisy 8 exk_t2 (rot_count exd_crs (1 mod Z.of_nat (8 / 2)) * (Z.of_nat (length (kids exk_t2)) * switch_noise 8 xp (klev exk_t2) (dig_bound xp (klev exk_t2)) 3 1))) by (rewrite RC; reflexivity).
      rewrite X. apply (kstep_rot 8 xp exk_scale exd_crs 3 1 nil [exk_t "alice"; exk_t "bob"; exk_t2] 2 1 exk_t2). reflexivity. }
    cbn [app]. apply (ksteps_cons _ _ _ _ _ _ _ _ _ exh_t4).
    { assert (X : exh_t4 = KI (kids exh_t3) (klev exh_t3 - 0) (ksc exh_t3) (kM exh_t3) (kmu exh_t3) (keps exh_t3)) by reflexivity. rewrite X.
      apply (kstep_drop 8 xp exk_scale exd_crs 3 1 nil [exk_t "alice"; exk_t "bob"; exk_t2; exh_t3] 3 0 exh_t3); [reflexivity|lia]. }
    cbn [app]. apply ksteps_nil.
Qed.
Print Assumptions C57_nonvacuous.
