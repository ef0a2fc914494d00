(** C63, continued: a program with calls in place that the rule allows with the parameters ckks15. *)
From Flocq Require Import Core BinarySingleNaN.
From Coq Require Import Znumtheory Setoid Morphisms Reals Lra.
From Verif Require Import Base IdSetModel KeySetModel NumTheory Negacyclic Ntt Word BasisExt BasisExtProofs DecompProofs BasisSpec Rows RlweModel KeyGenModel SchemeSpec ExtProd ExtProps Galois KeyGenProofs CtModel CtSpec CtProofs EncDecProofs EncMsgModel KeySwitchModel Digits KsLoops RotProofs ConjProofs MulProofs PropsEnc PropsKeySwitch PropsRotate FloatModel CkksFloat CkksModel FloatProofs CkksFloatProofs CkksProofs CkksRescale PropsCkks PropsRescale PropsConst Slots PropsSlots CkksSlots CkksCircuit PropsCkksCircuit PropsCkksScale PropsIndex Shipped BfvModel BfvConv PropsBfvCircuit Instance BfvCross PropsShipped CkksBudget SlotNorm SlotEncode PropsCkksShipped HeapModel HeapProofs HeapEval CkksFull PropsCkksFull PropsCkksFullEx CkksFullRule PropsCkksFullRule.
Open Scope Z_scope.
(** 0: alice, 1: bob. A copy of 0 is multiplied by 3/4 and rescaled in place (2); the hoisted product of 0 and 1 (3) is rotated by 4 (4); 4 is multiplied by -3 in place and dropped two levels; 2 and 4 are added (5);
    Rescale of the sum finds nothing to divide by *)
Definition gshipped_prog (scale : f64) : list ginstr := [GCopy 0; GConst 2 (CFloat exf_x) 2; GRescale 2 scale 2; GMulH 0 1; GRotH 3 4; GConst 4 (CInt (-3)) 4; GDrop 4 2; GCall (KAdd 2 4); GRescale 5 scale 5].
Theorem C63_nonvacuous : let scale := f_of_int (2 ^ 54) in let cA := half_pow 27 in let cR := (INR 2 * half_pow 20)%R in let cM := ((INR 2 + 1) * half_pow 24)%R in let cD := half_pow 48 in let cX := half_pow 52 in
  let b0 id := GB [id] (KB 13 1 (half_pow 40 + half_pow 18)) false in
  exists bs', grules N15 scale 13 cA cR cM cD cX nil (defaults 15) [b0 "alice"%string; b0 "bob"%string] (gshipped_prog scale) bs' /\
  (exists b, nth_error bs' 5 = Some b /\ gdbl b = false /\ (forall x, In x (gids b) <-> x = "alice"%string \/ x = "bob"%string) /\ bl (gk b) = 10%nat /\ bmu (gk b) = (15 / 4)%R /\ (berr (gk b) <= half_pow 14)%R) /\
  (* what register 5 stands for: 3/4 of the first input minus three times the product, rotated by 4 *)
  forall (z0 z1 : slots) q, nth 5 (gplain_run N15 nil (gshipped_prog scale) [z0; z1]) zslots q = cadd (cscale (3 / 4) (z0 q)) (cscale (-3) (cmul (z0 ((q + 4) mod (N15 / 2))%nat) (z1 ((q + 4) mod (N15 / 2))%nat))).
Proof.
  cbv zeta. set (scale := f_of_int (2 ^ 54)). destruct exf_val as [XV XF].
  assert (N2 : Z.of_nat (N15 / 2) = 16384) by (rewrite Nat2Z.inj_div, N15_Z; reflexivity). assert (M4 : 4 mod 16384 = 4) by reflexivity.
  eexists. split; [|split].
  - unfold gshipped_prog.
    eapply grules_cons. { apply gr_copy. reflexivity. }
    cbn [app]. eapply grules_cons. { eapply (gr_frac _ _ _ _ _ _ _ _ _ _ _ 2 (CFloat exf_x) 2 exf_x); try reflexivity; trivial.
      - intros x. reflexivity.
      - cbn. lia.
      - left. reflexivity.
      - rewrite XV, Rabs_right by lra. apply Rlt_le_trans with 1%R; [lra|]. apply IZR_le. vm_compute. discriminate.
      - intros z. rewrite XV. intros E. assert (E' : IZR 3 = IZR (4 * z)) by (rewrite mult_IZR; lra). apply eq_IZR in E'. lia. }
    cbn [upd]. eapply grules_cons. { eapply gr_rescale. reflexivity. }
    cbn [upd]. eapply grules_cons. { apply gr_mulh. split; [intros a [<-|[<-|[]]]; reflexivity|cbn; lia]. }
    cbn [app]. eapply grules_cons. { apply gr_roth. { split; [intros a [<-|[]]; reflexivity|cbn; lia]. } cbn zeta. rewrite N2, M4. right. unfold defaults. apply in_map_iff. exists 2%nat. split; [reflexivity|]. apply in_seq. lia. }
    cbn [app]. eapply grules_cons. { eapply (gr_int _ _ _ _ _ _ _ _ _ _ _ 4 (CInt (-3)) 4 (-3)); try reflexivity; [intros x; reflexivity|left; reflexivity]. }
    cbn [upd]. eapply grules_cons. { eapply (gr_drop _ _ _ _ _ _ _ _ _ _ _ 4 2). reflexivity. cbn. lia. }
    cbn [upd]. eapply grules_cons. { apply gr_call. split; [intros a [<-|[<-|[]]]; reflexivity|cbn; lia]. }
    cbn [app]. eapply grules_cons. { eapply gr_rescale_none; reflexivity. }
    apply grules_nil.
  - eexists. split; [reflexivity|]. split; [reflexivity|]. split; [intros x; cbn; intuition congruence|].
    cbn [gk gcall kcost map nth scaled fraced rescaled prule bl bmu berr Nat.min Nat.sub]. rewrite XV. replace (IZR (-3)) with (- (3))%R by lra. rewrite Rabs_Ropp, (Rabs_right 3), (Rabs_right (3 / 4)) by lra. change (INR 2) with 2%R.
    change (2 ^ Z.of_nat 3 - 1) with 7. reals. split; [reflexivity|]. split; lra.
  - intros z0 z1 q. cbn [gplain_run fold_left gshipped_prog gplain app upd nth kplain cval]. rewrite XV, N2, M4. reflexivity.
Qed.
Print Assumptions C63_nonvacuous.
