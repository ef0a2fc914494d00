(** C74 for BFV's MulRelinNew: the bits of the product do not depend on the iteration order of Go's maps. *)
From Coq Require Import Znumtheory Setoid Morphisms Permutation.
From Verif Require Import Base IdSetModel KeySetModel NumTheory Negacyclic Ntt Word BasisExt BasisExtProofs DecompProofs BasisSpec Rows RlweModel SchemeSpec ExtProd ExtProps KeyGenModel Galois KeyGenProofs CtModel CtSpec CtProofs EncDecProofs KeySwitchModel Digits KsLoops RotProofs ConjProofs MulProofs Instance PropsEnc PropsRotate PropsKeySwitch BfvModel PropsBfv BfvMulModel BfvConv BfvGadget BfvDig BfvKey BfvCross BfvMulProofs PropsBfvConv PropsBfvMul PropsBfvMulEx PropsSum Determ DetermOps DetermMul DetermBfv PropsDeterm.
Open Scope Z_scope.

Theorem C74_bfv_mul : forall N b (o o' : IdSetModel.order) crs (c0 c0' c1 c1' : ctT N) (rs : brlkset N) (s r : string -> R N) B T, wfb N b -> (length (bQ b) mod alpha (ppQ b) = 0)%nat -> order_ok o -> order_ok o' ->
  wfct (ppQ b) (maxLevel (ppQ b)) false c0 -> wfct (ppQ b) (maxLevel (ppQ b)) false c1 -> mwf c0' -> mwf c1' -> sameCt c0 c0' -> sameCt c1 c1' -> relin_keys b s r crs rs B T c0 c1 ->
  exists v v', bMulRelinNew b o crs c0 c1 rs = Ok v /\ bMulRelinNew b o' crs c0' c1' rs = Ok v' /\ sameCt v v'.
Proof.
  intros N b o o' crs c0 c0' c1 c1' rs s r B T WB HD O O' W0 W1 M0 M1 S0 S1 HK.
  pose proof (wfct_same _ _ _ _ _ M0 S0 W0) as W0'. pose proof (wfct_same _ _ _ _ _ M1 S1 W1) as W1'. apply same_eqc in S0. apply same_eqc in S1.
  destruct (C40_mul N b o crs c0 c1 rs s r B T WB HD O W0 W1 HK) as (v & _ & _ & _ & _ & E & _).
  destruct (bMulRelinNew_dir b WB HD o o' crs c0 c0' c1 c1' rs s r B T v O O' W0 W1 W0' W1' S0 S1 HK E) as (v' & E' & Q). exists v, v'. split; [exact E|]. split; [exact E'|]. apply same_eqc. exact Q.
Qed.
Print Assumptions C74_bfv_mul.

(** three parties, generated keys, two iteration orders that differ in every loop *)
Theorem C74_bfv_mul_nonvacuous : exists (c0 c1 : ctT 8) (rs : brlkset 8) v v', parties c0 = ["alice"; "bob"]%string /\ parties c1 = ["bob"; "carol"]%string /\
  (forall n, ex_ord n (parties c0) <> ex_ord2 n (parties c0)) /\ bMulRelinNew exc ex_ord exc_crs c0 c1 rs = Ok v /\ bMulRelinNew exc ex_ord2 exc_crs c0 c1 rs = Ok v' /\ sameCt v v'.
Proof.
  destruct C40_nonvacuous as (c0 & c1 & rs & sks & V0 & V1 & WB & HD & O & W0 & W1 & P0 & P1 & HK & _).
  destruct (C74_bfv_mul 8 exc ex_ord ex_ord2 exc_crs c0 c0 c1 c1 rs _ _ 3 1 WB HD ex_ord_ok ex_ord2_ok W0 W1 (proj1 W0) (proj1 W1) ltac:(intros x; split; reflexivity) ltac:(intros x; split; reflexivity) HK) as (v & v' & E & E' & S).
  exists c0, c1, rs, v, v'. split; [exact P0|]. split; [exact P1|]. split; [rewrite P0; intros n; unfold ex_ord2, ex_ord; destruct (Nat.even n); discriminate|]. split; [exact E|]. split; [exact E'|exact S].
Qed.
Print Assumptions C74_bfv_mul_nonvacuous.
