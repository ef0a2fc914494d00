(** C39: mkbfv's ModUpQtoR, Rescale and Quantize on whole polynomials.
    Integer polynomials stand for residues: [residues ms rows X] says row number j is X modulo the j-th modulus of the chain. *)
From Verif Require Import Base NumTheory Negacyclic Ntt Word BasisExt BasisExtProofs DecompProofs BasisSpec Rows RlweModel SchemeSpec ExtProd ExtProps KeyGenModel KeyGenProofs Instance BfvMulModel BfvConv.
From Coq Require Import Znumtheory.
Open Scope Z_scope.

Definition chainR (b : bparams) : list Z := Qs (ppQ b) ++ Ms b.
Definition residues {N} (ms : list Z) (rows : list (R N)) (X : R N) : Prop :=
  (length ms <= length rows)%nat /\ forall j x, (j < length ms)%nat -> (x < N)%nat -> (nth j ms 0 | co (nth j rows R0) x - co X x).
(** a polynomial as the ciphertexts of the library hold it: one row of reduced words per modulus of Q *)
Definition polyQ {N} (b : bparams) (p : list (R N)) : Prop :=
  (length (bQ b) <= length p)%nat /\ forall j x, (j < length (bQ b))%nat -> (x < N)%nat -> 0 <= co (nth j p R0) x <= nth j (Qs (ppQ b)) 0.

Section C39.
  Context {N : nat} (b : bparams) (WB : wfb N b).
  Notation R := (R N).
  Lemma polyQ_inr (p : list R) : polyQ b p -> forall j, (j < length (bQ b))%nat -> inr (Qi (ppQ b) j) (row p j).
  Proof. intros [_ H] j Hj x Hx. specialize (H j x Hj Hx). rewrite (nth_Q b) in H by assumption. exact H. Qed.
  Lemma rowsR_residues rows (X : R) : rowsR b rows X -> length rows = length (chainR b) /\ residues (chainR b) rows X.
  Proof.
    intros [L H]. assert (LC : length (chainR b) = (length (bQ b) + length (bQ b))%nat) by (unfold chainR; rewrite app_length, Qs_len, (Ms_len b WB); reflexivity).
    split; [lia|]. split; [lia|]. intros j x Hj Hx. unfold chainR. rewrite <- Rs_eq. rewrite nth_Qs by (cbn [ppR Qm]; rewrite app_length, <- (wb_len _ _ WB); lia).
    destruct (H j ltac:(lia)) as [_ E]. apply (proj1 (eqm_co _ _ _) E x Hx).
  Qed.
  Lemma res_Q (p : list R) (X : R) : (length (bQ b) <= length p)%nat -> (forall j, (j < length (bQ b))%nat -> eqm (mq (Qi (ppQ b) j)) (row p j) X) -> residues (Qs (ppQ b)) p X.
  Proof.
    intros L H. split; [rewrite Qs_len; assumption|]. intros j x Hj Hx. rewrite Qs_len in Hj. rewrite (nth_Q b) by assumption.
    apply (proj1 (eqm_co _ _ _) (H j Hj) x Hx).
  Qed.

  (** ModUpQtoR: the 2n rows are the residues, modulo all of R, of one lift of the input with coefficients in [0, Q) *)
  Theorem C39_modup (p : list R) : polyQ b p ->
    exists out X, ModUpQtoR b p = Ok out /\ length out = length (chainR b) /\ residues (chainR b) out X /\ residues (Qs (ppQ b)) p X /\
      (forall x, (x < N)%nat -> almost_reduced (co X x) (qprod b)).
  Proof.
    intros H. destruct (ModUpQtoR_ok b WB p (proj1 H) (polyQ_inr p H)) as (out & X & E & RR & NE & EQ).
    destruct (rowsR_residues _ _ RR) as [L RS]. exists out, X. split; [exact E|]. split; [exact L|]. split; [exact RS|]. split; [|exact NE].
    apply res_Q; [apply H|]. intros j Hj. rewrite <- EQ by assumption. rewrite <- (Qi_R b) by assumption. apply RR. lia.
  Qed.

  (** Rescale: for one lift X of the input, the 2n rows are the residues modulo all of R of Y = floor (X * QMul / Q) *)
  Theorem C39_rescale (p : list R) : polyQ b p ->
    exists out X Y, Rescale b p = Ok out /\ length out = length (chainR b) /\ residues (chainR b) out Y /\ residues (Qs (ppQ b)) p X /\
      (forall x, (x < N)%nat -> almost_reduced (mprod b * co X x - qprod b * co Y x) (qprod b) /\ almost_reduced (co Y x) (mprod b)).
  Proof.
    intros H. destruct (Rescale_ok b WB p (proj1 H) (polyQ_inr p H)) as (out & X & Y & Rm & E & RR & EQ & ID & N1 & N2).
    destruct (rowsR_residues _ _ RR) as [L RS]. exists out, X, Y. split; [exact E|]. split; [exact L|]. split; [exact RS|]. split; [apply res_Q; [apply H|exact EQ]|].
    intros x Hx. split; [|apply N2; assumption]. apply (f_equal (fun r => co r x)) in ID. rewrite co_add, !co_smul in ID.
    replace (mprod b * co X x - qprod b * co Y x) with (co Rm x) by lia. apply N1. assumption.
  Qed.

  (** Quantize: the input rows hold, in NTT form, the residues of any integer polynomial X modulo all of R; the output rows are the reduced
      residues modulo Q of Z = floor (t * X / QMul) *)
  Theorem C39_quantize (p : list R) (X : R) :
    (forall j x, (j < length (chainR b))%nat -> (x < N)%nat -> 0 <= co (nth j p R0) x < 2 ^ 64) ->
    residues (chainR b) (tab (length (chainR b)) (fun j => intt (Qi (ppR b) j) (row p j))) X ->
    exists out Z, Quantize b p = Ok out /\ length out = length (bQ b) /\ residues (Qs (ppQ b)) out Z /\
      (forall j x, (j < length (bQ b))%nat -> (x < N)%nat -> 0 <= co (nth j out R0) x < nth j (Qs (ppQ b)) 0) /\
      (forall x, (x < N)%nat -> almost_reduced (bT b * co X x - mprod b * co Z x) (mprod b)).
  Proof.
    intros HW H. assert (LC : length (chainR b) = (length (bQ b) + length (bQ b))%nat) by (unfold chainR; rewrite app_length, Qs_len, (Ms_len b WB); reflexivity).
    destruct (Quantize_ok b WB p X) as (out & Z & Rm & E & L & O & ID & NE).
    { intros j Hj. split; [intros x Hx; apply HW; [lia|assumption]|]. unfold rep. apply eqm_co. intros x Hx. destruct H as [_ H]. specialize (H j x ltac:(lia) Hx).
      rewrite nth_tab in H by lia. unfold chainR in H. rewrite <- Rs_eq in H. rewrite nth_Qs in H by (cbn [ppR Qm]; rewrite app_length, <- (wb_len _ _ WB); lia). exact H. }
    exists out, Z. split; [exact E|]. split; [exact L|]. split; [apply res_Q; [lia|intros j Hj; apply O; assumption]|]. split.
    - intros j x Hj Hx. rewrite (nth_Q b) by assumption. apply (proj1 (O j Hj) x Hx).
    - intros x Hx. apply (f_equal (fun r => co r x)) in ID. rewrite co_add, !co_smul in ID.
      replace (bT b * co X x - mprod b * co Z x) with (co Rm x) by lia. apply NE. assumption.
  Qed.
End C39.

(** chains of different lengths are rejected; a polynomial without all the rows of Q panics *)
Theorem C39_lengths b : length (bQ b) <> length (bM b) -> NewParams b = Panic.
Proof. intros H. unfold NewParams. apply Nat.eqb_neq in H. rewrite H. reflexivity. Qed.
Theorem C39_short {N} b (p : list (R N)) : (length p < length (bQ b))%nat -> ModUpQtoR b p = Panic /\ Rescale b p = Panic.
Proof. intros H. apply Nat.ltb_lt in H. unfold ModUpQtoR, Rescale. rewrite H. split; reflexivity. Qed.

(** a parameter set: N = 8, Q = 97*193, QMul = 257*337, P = 113*241*353*401, t = 17, so alpha = 2 *)
Definition exb : bparams := BP [Mod 97 8; Mod 193 3] [Mod 257 2; Mod 337 30] [Mod 113 35; Mod 241 44; Mod 353 36; Mod 401 30] 17.
Lemma exb_wf : wfb 8 exb.
Proof.
  assert (F : Forall (okmod (N := 8)) (Qm (ppR exb) ++ Pm (ppR exb))).
  { cbn. repeat (constructor; [apply ex_okm; [vm_compute; reflexivity|cbn [mq]; lia|vm_compute; reflexivity]|]). constructor. }
  assert (OB : okbase (Qs (ppR exb) ++ Ps (ppR exb))).
  { split.
    - cbn [Qs Ps ppR exb bQ bM bP Qm Pm map mq app]. repeat (constructor; [cbn; intuition discriminate|]). constructor.
    - unfold Qs, Ps. rewrite <- map_app. apply Forall_map. apply (Forall_impl _ (P := okmod (N := 8))); [|exact F]. intros m H. apply H. }
  assert (A : alpha (ppR exb) = 2%nat) by reflexivity.
  constructor; [constructor; trivial; rewrite ?A; cbn [ppR exb bQ bM bP Qm Pm gam length app]; lia|reflexivity|cbn; lia|cbn; lia].
Qed.
Definition exb_poly : list (R 8) := [ex_poly [96; 0; 5; 17; 40; 1; 95; 60]; ex_poly [192; 0; 0; 100; 7; 111; 150; 3]].
Lemma exb_poly_ok : polyQ exb exb_poly.
Proof.
  split; [cbn; lia|]. intros j x Hj Hx. cbn in Hj. do 2 (destruct j as [|j]; [do 8 (destruct x as [|x]; [vm_compute; split; discriminate|]); lia|]). lia.
Qed.
Theorem C39_nonvacuous : NewParams exb = Ok exb /\ (exists out, ModUpQtoR exb exb_poly = Ok out /\ length out = 4%nat) /\
  (exists out, Rescale exb exb_poly = Ok out /\ length out = 4%nat).
Proof.
  split; [reflexivity|]. split.
  - destruct (C39_modup exb exb_wf exb_poly exb_poly_ok) as (out & X & E & L & _). exists out. split; [exact E|]. rewrite L. reflexivity.
  - destruct (C39_rescale exb exb_wf exb_poly exb_poly_ok) as (out & X & Y & E & L & _). exists out. split; [exact E|]. rewrite L. reflexivity.
Qed.
Print Assumptions C39_modup.
Print Assumptions C39_rescale.
Print Assumptions C39_quantize.
