(** C74 for the operations without keys: what AddNew, SubNew, MulPtxtNew, MultByConst, DropLevel, DropLevelNew, Rescale and RescaleNew of mkckks and AddNew, SubNew of mkbfv
    return does not depend on the iteration order of Go's maps, bit by bit. Specification: sameCk and sameRes of PropsDeterm.v, sameCt of PropsSum.v, sameEv below. *)
From Flocq Require Import Core BinarySingleNaN.
From Coq Require Import Znumtheory Setoid Morphisms Reals Lra Permutation.
From Verif Require Import Base IdSetModel IdSetSpec IdSetProofs KeySetModel NumTheory Negacyclic Ntt Word BasisExt BasisExtProofs Rows RlweModel KeyGenModel SchemeSpec ExtProd ExtProps Galois KeyGenProofs Instance CtModel CtSpec CtProofs EncDecProofs PropsEnc KeySwitchModel Digits KsLoops RotProofs MulProofs PropsKeySwitch FloatModel CkksFloat CkksModel FloatProofs CkksFloatProofs CkksProofs CkksRescale PropsCkks PropsRescale PropsConst PropsMulRelin PropsCkksEx BfvModel PropsBfv PropsSum Determ DetermOps DetermMul PropsDeterm DetermLin.
Open Scope Z_scope.

(** evaluators with the same buffers (AddNew and SubNew write to the buffers of the evaluator) *)
Definition sameEv {N} (s t : evalst N) : Prop := sameCt (ctxtPool s) (ctxtPool t) /\ polyQPool s = polyQPool t.

Lemma sameEv_sym {N} (s t : evalst N) : sameEv s t -> sameEv t s.
Proof. intros [A B]. split; [apply sameCt_sym; exact A|symmetry; exact B]. Qed.
Lemma sameEv_eqs {N} (s t : evalst N) : sameEv s t <-> eqs s t.
Proof. unfold sameEv, eqs. rewrite same_eqc. reflexivity. Qed.
Lemma sameCk_eqk {N} (s t : ckct N) : sameCk s t <-> eqk s t.
Proof. unfold sameCk, eqk. rewrite same_eqc. reflexivity. Qed.
Lemma dir_weaken {A} (E E' : A -> A -> Prop) r r' : (forall a b, E a b -> E' a b) -> dir E r r' -> dir E' r r'.
Proof. intros H D a Ha. destruct (D a Ha) as (b & B & C). exists b. split; [exact B|apply H; exact C]. Qed.
(** the relation of the results that come with an evaluator or an error *)
Definition sameEvCk {N} (r r' : evalst N * ckct N) : Prop := sameEv (fst r) (fst r') /\ sameCk (snd r) (snd r').
Definition sameCkErr {N} (r r' : ckct N * bool) : Prop := sameCk (fst r) (fst r') /\ snd r = snd r'.
Lemma sameEvCk_sym {N} (r r' : evalst N * ckct N) : sameEvCk r r' -> sameEvCk r' r.
Proof. intros [A B]. split; [apply sameEv_sym; exact A|apply sameCk_sym; exact B]. Qed.
Lemma sameCkErr_sym {N} (r r' : ckct N * bool) : sameCkErr r r' -> sameCkErr r' r.
Proof. intros [A B]. split; [apply sameCk_sym; exact A|symmetry; exact B]. Qed.
Lemma of_eqsk {N} (r r' : evalst N * ckct N) : eqsk r r' -> sameEvCk r r'.
Proof. intros [A B]. split; [apply sameEv_eqs; exact A|apply sameCk_eqk; exact B]. Qed.
Lemma of_eqkb {N} (r r' : ckct N * bool) : eqkb r r' -> sameCkErr r r'.
Proof. intros [A B]. split; [apply sameCk_eqk; exact A|exact B]. Qed.

Theorem C74_add_sub : forall N pp (o o' : IdSetModel.order) (st st' : evalst N) (c0 c0' c1 c1' : ckct N), order_ok o -> order_ok o' -> mwf (cv c0) -> mwf (cv c0') -> mwf (cv c1) -> mwf (cv c1') ->
  sameEv st st' -> sameCk c0 c0' -> sameCk c1 c1' ->
  sameRes sameEvCk (AddNew pp o st c0 c1) (AddNew pp o' st' c0' c1') /\ sameRes sameEvCk (SubNew pp o st c0 c1) (SubNew pp o' st' c0' c1').
Proof.
  intros N pp o o' st st' c0 c0' c1 c1' O O' M0 M0' M1 M1' ST S0 S1. pose proof (sameEv_sym _ _ ST) as ST'. pose proof (sameCk_sym _ _ S0) as S0'. pose proof (sameCk_sym _ _ S1) as S1'.
  apply sameEv_eqs in ST, ST'. apply sameCk_eqk in S0, S0', S1, S1'. split; apply (sameRes_dir _ sameEvCk_sym); refine (dir_weaken _ _ _ _ of_eqsk _).
  - apply AddNew_dir; assumption.
  - apply AddNew_dir; assumption.
  - apply SubNew_dir; assumption.
  - apply SubNew_dir; assumption.
Qed.
Print Assumptions C74_add_sub.
Theorem C74_mul_ptxt : forall N pp (o o' : IdSetModel.order) pscale (st st' : evalst N) (c c' : ckct N) pt sc, order_ok o -> order_ok o' -> mwf (cv c) -> mwf (cv c') -> sameEv st st' -> sameCk c c' ->
  sameRes sameEvCk (MulPtxtNew pp o pscale st c pt sc) (MulPtxtNew pp o' pscale st' c' pt sc).
Proof.
  intros N pp o o' ps st st' c c' pt sc O O' M M' ST S. pose proof (sameEv_sym _ _ ST) as ST'. pose proof (sameCk_sym _ _ S) as S'.
  apply sameEv_eqs in ST, ST'. apply sameCk_eqk in S, S'. apply (sameRes_dir _ sameEvCk_sym); refine (dir_weaken _ _ _ _ of_eqsk _); apply MulPtxtNew_dir; assumption.
Qed.
Print Assumptions C74_mul_ptxt.
Theorem C74_mult_by_const : forall N pp (o o' : list string -> list string) (c c' out out' : ckct N) k, ord1_ok o -> ord1_ok o' -> mwf (cv c) -> mwf (cv c') -> sameCk c c' -> sameCk out out' ->
  sameRes sameCk (MultByConst pp o c k out) (MultByConst pp o' c' k out').
Proof.
  assert (D : forall N pp (o o' : list string -> list string) (c c' out out' : ckct N) k, ord1_ok o -> ord1_ok o' -> mwf (cv c) -> mwf (cv c') -> sameCk c c' -> sameCk out out' -> dir sameCk (MultByConst pp o c k out) (MultByConst pp o' c' k out')).
  { intros N pp o o' c c' out out' k O O' M M' S SO v H. apply sameCk_eqk in S, SO. destruct (MultByConst_dir pp o o' c c' out out' v k O O' M M' S (proj1 SO) H) as (v' & A & B & _). exists v'. split; [exact A|apply sameCk_eqk; exact B]. }
  intros N pp o o' c c' out out' k O O' M M' S SO. apply (sameRes_dir _ sameCk_sym); apply D; try assumption; apply sameCk_sym; assumption.
Qed.
Print Assumptions C74_mult_by_const.
Theorem C74_drop_level : forall N pp (o o' : IdSetModel.order) (c c' : ckct N) levels, order_ok o -> order_ok o' -> mwf (cv c) -> mwf (cv c') -> In id0 (keys (cv c)) -> sameCk c c' ->
  sameRes sameCk (DropLevel pp (o 0%nat) c levels) (DropLevel pp (o' 0%nat) c' levels) /\ sameRes sameCk (DropLevelNew pp o c levels) (DropLevelNew pp o' c' levels).
Proof.
  assert (D : forall N pp (o o' : list string -> list string) (c c' : ckct N) levels, ord1_ok o -> ord1_ok o' -> mwf (cv c) -> mwf (cv c') -> eqk c c' -> dir sameCk (DropLevel pp o c levels) (DropLevel pp o' c' levels)).
  { intros N pp o o' c c' levels O O' M M' S v H. destruct (DropLevel_dir pp o o' c c' levels v O O' M M' S H) as (v' & A & B & _). exists v'. split; [exact A|apply sameCk_eqk; exact B]. }
  intros N pp o o' c c' levels O O' M M' I S. pose proof (sameCk_sym _ _ S) as S'. pose proof (proj1 (proj1 (proj1 S id0)) I) as I'. apply sameCk_eqk in S, S'.
  split; apply (sameRes_dir _ sameCk_sym).
  - apply D; try assumption; intros l; [apply O|apply O'].
  - apply D; try assumption; intros l; [apply O'|apply O].
  - refine (dir_weaken _ _ _ _ (fun a b => proj2 (sameCk_eqk a b)) _). apply DropLevelNew_dir; assumption.
  - refine (dir_weaken _ _ _ _ (fun a b => proj2 (sameCk_eqk a b)) _). apply DropLevelNew_dir; assumption.
Qed.
Print Assumptions C74_drop_level.
(** Rescale in place, Rescale to another ciphertext, and RescaleNew: the ciphertext and the error *)
Theorem C74_rescale : forall N pp (o o' : IdSetModel.order) (c c' out out' : ckct N) minScale, order_ok o -> order_ok o' -> mwf (cv c) -> mwf (cv c') -> mwf (cv out) -> mwf (cv out') -> sameCk c c' -> sameCk out out' ->
  sameRes sameCkErr (Rescale pp (o 0%nat) c minScale None) (Rescale pp (o' 0%nat) c' minScale None) /\
  sameRes sameCkErr (Rescale pp (o 0%nat) c minScale (Some out)) (Rescale pp (o' 0%nat) c' minScale (Some out')) /\
  sameRes sameCkErr (RescaleNew pp o c minScale) (RescaleNew pp o' c' minScale).
Proof.
  intros N pp o o' c c' out out' ms O O' M M' MO MO' S SO. pose proof (sameCk_sym _ _ S) as S'. pose proof (sameCk_sym _ _ SO) as SO'. apply sameCk_eqk in S, S', SO, SO'.
  assert (A : ord1_ok (o 0%nat)) by (intros l; apply O). assert (A' : ord1_ok (o' 0%nat)) by (intros l; apply O').
  split; [|split]; apply (sameRes_dir _ sameCkErr_sym); refine (dir_weaken _ _ _ _ of_eqkb _).
  - apply Rescale_dir2; try assumption. split; assumption.
  - apply Rescale_dir2; try assumption. split; assumption.
  - apply Rescale_dir2; try assumption. split; [|split]; assumption.
  - apply Rescale_dir2; try assumption. split; [|split]; assumption.
  - apply RescaleNew_dir; assumption.
  - apply RescaleNew_dir; assumption.
Qed.
Print Assumptions C74_rescale.
Theorem C74_bfv_add_sub : forall N pp (o o' : IdSetModel.order) (c0 c0' c1 c1' : ctT N), order_ok o -> order_ok o' -> sameCt c0 c0' -> sameCt c1 c1' ->
  sameRes sameCt (bAddNew pp o c0 c1) (bAddNew pp o' c0' c1') /\ sameRes sameCt (bSubNew pp o c0 c1) (bSubNew pp o' c0' c1').
Proof.
  intros N pp o o' c0 c0' c1 c1' O O' S0 S1. pose proof (sameCt_sym _ _ S0) as S0'. pose proof (sameCt_sym _ _ S1) as S1'. apply same_eqc in S0, S0', S1, S1'.
  split; apply (sameRes_dir _ sameCt_sym); refine (dir_weaken _ _ _ _ (fun a b => proj2 (same_eqc a b)) _).
  - apply bAddNew_dir; assumption.
  - apply bAddNew_dir; assumption.
  - apply bSubNew_dir; assumption.
  - apply bSubNew_dir; assumption.
Qed.
Print Assumptions C74_bfv_add_sub.

(** two parties, scales 2^16 and 3 * 2^16 (so the buffer of the evaluator is used), levels 2 and 1, two iteration orders that differ in every loop; all runs return *)
Theorem C74_linear_nonvacuous : exists c0 c1 : ckct 8, parties (cv c0) = ["alice"]%string /\ parties (cv c1) = ["alice"; "bob"]%string /\ mwf (cv c0) /\ mwf (cv c1) /\ csc c0 <> csc c1 /\
  (forall n, ex_ord n (parties (cv c1)) <> ex_ord2 n (parties (cv c1))) /\
  (exists r r', AddNew ex_pp ex_ord (NewEvaluator ex_pp) c0 c1 = Ok r /\ AddNew ex_pp ex_ord2 (NewEvaluator ex_pp) c0 c1 = Ok r' /\ sameEvCk r r') /\
  (exists r r', SubNew ex_pp ex_ord (NewEvaluator ex_pp) c0 c1 = Ok r /\ SubNew ex_pp ex_ord2 (NewEvaluator ex_pp) c0 c1 = Ok r' /\ sameEvCk r r').
Proof.
  destruct sc1_ok as [A1 A2], sc3_ok as [B1 B2].
  pose proof (ex_ct_wf 3 _ ltac:(lia) ex_nd1) as W0. pose proof (ex_ct_wf 2 _ ltac:(lia) ex_nd2) as W1. set (c0 := ex_ct 3 ["alice"%string]) in *. set (c1 := ex_ct 2 ["alice"; "bob"]%string) in *.
  exists (CK c0 sc1), (CK c1 sc3). cbn [cv csc]. split; [reflexivity|]. split; [reflexivity|]. split; [exact (proj1 W0)|]. split; [exact (proj1 W1)|].
  split; [intros E; rewrite E, B1 in A1; lra|]. split; [intros n; change (parties c1) with ["alice"; "bob"]%string; unfold ex_ord2, ex_ord; destruct (Nat.even n); discriminate|].
  assert (Q3 : length (Qm ex_pp) = 3%nat) by reflexivity. assert (P1 : (0 < B2R sc1)%R) by (rewrite A1; lra). assert (P3 : (0 < B2R sc3)%R) by (rewrite B1; lra).
  assert (C : okratio sc1 sc3) by (left; rewrite A1, B1; change (2 ^ 52 - 1) with 4503599627370495; lra). assert (C' : okratio sc3 sc1) by (left; rewrite A1, B1; change (2 ^ 52 - 1) with 4503599627370495; lra).
  assert (ER : sameEv (NewEvaluator ex_pp : evalst 8) (NewEvaluator ex_pp)) by (split; [intros x; split; reflexivity|reflexivity]).
  pose proof (C74_add_sub 8 ex_pp ex_ord ex_ord2 (NewEvaluator ex_pp) (NewEvaluator ex_pp) (CK c0 sc1) (CK c0 sc1) (CK c1 sc3) (CK c1 sc3) ex_ord_ok ex_ord2_ok (proj1 W0) (proj1 W0) (proj1 W1) (proj1 W1) ER (sameCk_refl _) (sameCk_refl _)) as [SA SS].
  destruct (C19_add 8 ex_pp ex_ord (NewEvaluator ex_pp) (CK c0 sc1) (CK c1 sc3) 2 1 ex_wf ex_ord_ok ex_pool ltac:(rewrite Q3; lia) ltac:(rewrite Q3; lia) W0 W1 A2 B2 P1 P3 C C') as (s1 & v1 & E1 & _).
  destruct (C19_sub 8 ex_pp ex_ord (NewEvaluator ex_pp) (CK c0 sc1) (CK c1 sc3) 2 1 ex_wf ex_ord_ok ex_pool ltac:(rewrite Q3; lia) ltac:(rewrite Q3; lia) W0 W1 A2 B2 P1 P3 C C') as (s2 & v2 & E2 & _).
  rewrite E1 in SA. rewrite E2 in SS. split.
  - destruct (AddNew ex_pp ex_ord2 _ _ _) as [r'|]; [|destruct SA]. eexists _, r'. split; [exact E1|]. split; [reflexivity|exact SA].
  - destruct (SubNew ex_pp ex_ord2 _ _ _) as [r'|]; [|destruct SS]. eexists _, r'. split; [exact E2|]. split; [reflexivity|exact SS].
Qed.
Print Assumptions C74_linear_nonvacuous.
