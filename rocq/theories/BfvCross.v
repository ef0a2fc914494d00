(** The cross terms of mkbfv multiplication: sum of s_j X_j minus sum of r_i W_i times QMul is t times the product of the masked halves, up to a small error. *)
From Verif Require Import Base IdSetModel KeySetModel NumTheory Negacyclic Ntt Word BasisExt BasisExtProofs DecompProofs Rows RlweModel SchemeSpec ExtProd ExtProps KeyGenModel Galois KeyGenProofs CtModel CtSpec CtProofs KeySwitchModel Digits KsLoops MulProofs BfvModel BfvMulModel BfvConv BfvGadget BfvDig BfvKey.
From Coq Require Import Znumtheory Setoid Morphisms.
Open Scope Z_scope.

Lemma any_bnd {N} (x : R N) : exists B, bnd x B.
Proof.
  assert (G : forall m, exists B, forall i, (i < m)%nat -> Z.abs (co x i) <= B).
  { induction m as [|m [B H]]; [exists 0; intros; lia|]. exists (Z.max B (Z.abs (co x m))). intros i Hi. destruct (Nat.eq_dec i m) as [->|]; [lia|]. specialize (H i ltac:(lia)). lia. }
  destruct (G N) as [B H]. exists B. exact H.
Qed.
Lemma bnd_div {N} P (f : R N) B : 0 < P -> bnd (smul P f) B -> bnd f (B / P).
Proof.
  intros HP H i Hi. specialize (H i Hi). rewrite co_smul in H. rewrite Z.abs_mul, (Z.abs_eq P) in H by lia. apply Z.div_le_lower_bound; lia.
Qed.
Lemma smul_inj {N} P (f g : R N) : P <> 0 -> smul P f = smul P g -> f = g.
Proof. intros HP E. apply R_ext. intros i Hi. assert (X : co (smul P f) i = co (smul P g) i) by (rewrite E; reflexivity). rewrite !co_smul in X. nia. Qed.

(** size of the error left by the cross terms *)
Definition cross_noise (N : nat) (b : bparams) (n0 n1 : nat) (DB0 DB1 B T : Z) : Z :=
  (mprod b * (Z.of_nat n0 * (Z.of_nat n1 * (Z.of_nat (bbeta b + bbeta b) * (Z.of_nat N * (Z.of_nat N * DB0 * DB1) * (Z.of_nat N * T * B + Z.of_nat N * T * B))))
     + Z.of_nat n1 * (Z.of_nat N * T * slack (Pprod (ppQ b))) + Z.of_nat n0 * (Z.of_nat N * T * slack (Pprod (ppQ b))))
   + Z.of_nat n0 * (Z.of_nat n1 * (Z.of_nat N * (Z.of_nat N * T * T) * (Z.of_nat (bbeta b + bbeta b) * (mprod b * (Z.of_nat N * DB0 * DB1)))))) / Pprod (ppQ b).

Section Cross.
  Context {N : nat} (b : bparams) (WB : wfb N b).
  Notation R := (R N).
  Notation n := (length (bQ b)). Notation al := (alpha (ppQ b)). Notation pp := (ppQ b). Notation L := (maxLevel (ppQ b)). Notation be := (bbeta b).
  Hypothesis HD : (n mod al = 0)%nat.
  Let WF : wfp N pp := wf_ppQ b WB.
  Add Ring R_ring33 : (@R_ring_theory N).

  Lemma blk_of j : (j < n + n)%nat -> (j / al < be + be)%nat /\ (j / al * al <= j < (j / al + 1) * al)%nat.
  Proof.
    intros H. pose proof (al_pos b WB) as A. pose proof (beta_n b WB HD) as BN. pose proof (Nat.div_mod j al ltac:(lia)). pose proof (Nat.mod_upper_bound j al ltac:(lia)). split; [|nia].
    apply Nat.div_lt_upper_bound; nia.
  Qed.

  (** CRT: the digit products recombine to the product modulo R *)
  Lemma crt_mul (D0 D1 : nat -> R) X Y : (forall k j, (k < be + be)%nat -> (k * al <= j < (k + 1) * al)%nat -> eqm (nth j (Rs b) 0) (D0 k) X /\ eqm (nth j (Rs b) 0) (D1 k) Y) ->
    eqm (Rtot b) (Lsum (seq 0 (be + be)) (fun k => smul (Ek b k) (mul (D0 k) (D1 k)))) (mul X Y).
  Proof.
    intros H. rewrite Rtot_prod. apply eqm_co. intros i Hi. destruct (Rs_base b WB) as [ND F].
    apply divide_prodl; [assumption| |].
    - intros p Hp. apply (proj1 (Forall_forall _ _) F) in Hp. apply Hp.
    - intros p Hp. apply (In_nth _ _ 0) in Hp. destruct Hp as (j & Hj & <-). rewrite (Rs_len b WB) in Hj. revert i Hi. apply (proj1 (eqm_co _ _ _)).
      destruct (blk_of j Hj) as [K1 K2]. set (k0 := (j / al)%nat) in *. set (q := nth j (Rs b) 0).
      rewrite (Lsum_eqm q _ _ (fun k => if (k =? k0)%nat then mul X Y else R0)).
      + rewrite (Lsum_single (seq 0 (be + be)) _ k0 (seq_NoDup _ _)); [rewrite Nat.eqb_refl; reflexivity|apply in_seq; lia|].
        intros k _ Nk. apply Nat.eqb_neq in Nk. rewrite Nk. reflexivity.
      + intros k Hk. apply in_seq in Hk. destruct (Nat.eqb_spec k k0) as [->|Nk].
        * destruct (H k0 j K1 K2) as [H0 H1]. fold q in H0, H1. rewrite H0, H1. destruct (Ek_in b WB HD k0 j K1 K2) as [z Hz]. fold q in Hz.
          apply eqm_co. intros i Hi. rewrite co_smul. exists (z * co (mul X Y) i). replace (Ek b k0) with (1 + z * q) by lia. ring.
        * destruct (Ek_out b WB HD k j ltac:(lia) Hj) as [z Hz]; [intros C; apply Nk; nia|]. fold q in Hz.
          apply eqm_co. intros i Hi. rewrite co_smul, co_R0. exists (z * co (mul (D0 k) (D1 k)) i). replace (Ek b k) with (z * q) by lia. ring.
  Qed.

  Lemma gamma_ok (D0 D1 : nat -> R) X Y DB0 DB1 : (forall k j, (k < be + be)%nat -> (k * al <= j < (k + 1) * al)%nat -> eqm (nth j (Rs b) 0) (D0 k) X /\ eqm (nth j (Rs b) 0) (D1 k) Y) ->
    (forall k, (k < be + be)%nat -> bnd (D0 k) DB0 /\ bnd (D1 k) DB1) ->
    exists G rho, (forall i, vi pp L i -> eqm (qmod pp i) (Lsum (seq 0 (be + be)) (fun k => smul (gk b k) (mul (D0 k) (D1 k)))) G) /\
      add (smul (mprod b) G) rho = smul (bT b * Pprod pp) (mul X Y) /\ bnd rho (Z.of_nat (be + be) * (mprod b * (Z.of_nat N * DB0 * DB1))).
  Proof.
    intros H HB. pose proof (crt_mul D0 D1 X Y H) as C.
    assert (C' : exists kap, Lsum (seq 0 (be + be)) (fun k => smul (Ek b k) (mul (D0 k) (D1 k))) = add (mul X Y) (smul (Rtot b) kap)).
    { destruct C as [c Hc]. exists c. rewrite smul_cst. exact Hc. }
    destruct C' as [kap Hk]. set (S0 := Lsum (seq 0 (be + be)) (fun k => smul (gk b k) (mul (D0 k) (D1 k)))).
    set (rho := Lsum (seq 0 (be + be)) (fun k => smul (rk b k) (mul (D0 k) (D1 k)))).
    exists (sub S0 (smul (bT b * Pprod pp * qprod b) kap)), rho. split; [|split].
    - intros i V. apply eqm_co. intros x Hx. rewrite co_sub, co_smul.
      assert (DV : (qmod pp i | bT b * Pprod pp * qprod b)).
      { destruct i as [j|k]; unfold qmod; cbn [md].
        - apply Z.divide_mul_r. apply (qprod_div b). cbn [vi] in V. pose proof (L_n b WB). lia.
        - apply Z.divide_mul_l, Z.divide_mul_r. rewrite <- nth_Ps by exact V. apply in_divide_prodl. apply nth_In. rewrite len_Ps. exact V. }
      destruct DV as [z Hz]. exists (z * co kap x). rewrite Hz. ring.
    - assert (E : add (smul (mprod b) S0) rho = smul (bT b * Pprod pp) (Lsum (seq 0 (be + be)) (fun k => smul (Ek b k) (mul (D0 k) (D1 k))))).
      { unfold S0, rho. rewrite <- !Lsum_smul, <- Lsum_add. apply Lsum_ext. intros k _. apply R_ext. intros i Hi. rewrite co_add, !co_smul.
        pose proof (gk_eq b WB HD k) as G. transitivity ((mprod b * gk b k + rk b k) * co (mul (D0 k) (D1 k)) i); [ring|]. rewrite G. ring. }
      rewrite Hk in E. apply R_ext. intros i Hi. assert (E' : co (add (smul (mprod b) S0) rho) i = co (smul (bT b * Pprod pp) (add (mul X Y) (smul (Rtot b) kap))) i) by (rewrite E; reflexivity).
      rewrite co_add, !co_smul, co_add, co_smul in E'. rewrite co_add, !co_smul, co_sub, co_smul. unfold Rtot in E'. lia.
    - unfold rho. rewrite <- (seq_length (be + be) 0) at 2. apply Lsum_bnd. intros k Hk'. apply in_seq in Hk'. destruct (HB k ltac:(lia)) as [B0 B1].
      pose proof (bnd_mul _ _ _ _ B0 B1) as BM. intros i Hi. rewrite co_smul, Z.abs_mul. specialize (BM i Hi). pose proof (rk_bnd b WB k). rewrite (Z.abs_eq (rk b k)) by lia.
      pose proof (Z.abs_nonneg (co (mul (D0 k) (D1 k)) i)). nia.
  Qed.

  Lemma bcross (p0 p1 : list string) (s r : string -> R) (Xv Yv : string -> R) (D0 D1 : string -> nat -> R) DB0 DB1 (eb ed : string -> nat -> R) (sa : nat -> mi -> R)
      (Xf Wf : string -> list R) (R1 R2 : string -> R) B T :
    (forall i, In i p0 -> forall k, (k < be + be)%nat -> bnd (D0 i k) DB0 /\ forall j, (k * al <= j < (k + 1) * al)%nat -> eqm (nth j (Rs b) 0) (D0 i k) (Xv i)) ->
    (forall i, In i p1 -> forall k, (k < be + be)%nat -> bnd (D1 i k) DB1 /\ forall j, (k * al <= j < (k + 1) * al)%nat -> eqm (nth j (Rs b) 0) (D1 i k) (Yv i)) ->
    (forall id, In id p0 \/ In id p1 -> bnd (s id) T /\ bnd (r id) T /\ forall k, (k < be + be)%nat -> bnd (eb id k) B /\ bnd (ed id k) B) ->
    (forall j, In j p1 -> bnd (R1 j) (slack (Pprod pp)) /\ forall m, vi pp L m ->
       eqm (qmod pp m) (smul (Pprod pp) (frow (Xf j) m)) (sub (Lsum (seq 0 (be + be)) (fun k => mul (Lsum p0 (fun i => mul (sub (add (ed i k) (smul (gk b k) (s i))) (mul (r i) (sa k m))) (D0 i k))) (D1 j k))) (R1 j))) ->
    (forall i, In i p0 -> bnd (R2 i) (slack (Pprod pp)) /\ forall m, vi pp L m ->
       eqm (qmod pp m) (smul (Pprod pp) (frow (Wf i) m)) (sub (Lsum (seq 0 (be + be)) (fun k => mul (Lsum p1 (fun j => mul (sub (eb j k) (mul (s j) (sa k m))) (D1 j k))) (D0 i k))) (R2 i))) ->
    exists E F, bnd F (cross_noise N b (length p0) (length p1) DB0 DB1 B T) /\
      smul (mprod b) E = add (smul (bT b) (Lsum p0 (fun x => Lsum p1 (fun y => mul (mul (Xv x) (Yv y)) (mul (s x) (s y)))))) F /\
      forall j, (j <= L)%nat -> eqm (mq (Qi pp j)) (sub (Lsum p1 (fun y => mul (s y) (row (Xf y) j))) (Lsum p0 (fun x => mul (r x) (row (Wf x) j)))) E.
  Proof.
    intros G0 G1 HB HX HW. set (ks := seq 0 (be + be)) in *.
    (* Gamma and rho for every pair *)
    pose (PG := fun i (g : string -> R * R) => forall j, In j p1 -> (forall m, vi pp L m -> eqm (qmod pp m) (Lsum ks (fun k => smul (gk b k) (mul (D0 i k) (D1 j k)))) (fst (g j))) /\
      add (smul (mprod b) (fst (g j))) (snd (g j)) = smul (bT b * Pprod pp) (mul (Xv i) (Yv j)) /\ bnd (snd (g j)) (Z.of_nat (be + be) * (mprod b * (Z.of_nat N * DB0 * DB1)))).
    destruct (list_choice p0 PG (fun _ => (R0, R0))) as [gg HG].
    { intros i Hi. apply (list_choice p1 (fun j g => (forall m, vi pp L m -> eqm (qmod pp m) (Lsum ks (fun k => smul (gk b k) (mul (D0 i k) (D1 j k)))) (fst g)) /\
        add (smul (mprod b) (fst g)) (snd g) = smul (bT b * Pprod pp) (mul (Xv i) (Yv j)) /\ bnd (snd g) (Z.of_nat (be + be) * (mprod b * (Z.of_nat N * DB0 * DB1)))) (R0, R0)).
      intros j Hj. destruct (gamma_ok (D0 i) (D1 j) (Xv i) (Yv j) DB0 DB1) as (G & rho & A1 & A2 & A3).
      - intros k jj K Bk. split; [apply (G0 i Hi k K)|apply (G1 j Hj k K)]; assumption.
      - intros k K. split; [apply (G0 i Hi k K)|apply (G1 j Hj k K)].
      - exists (G, rho). cbn [fst snd]. split; [exact A1|]. split; assumption. }
    unfold PG in HG. clear PG. set (Ga := fun i j => fst (gg i j)) in *. set (rho := fun i j => snd (gg i j)) in *.
    set (Err := add (sub (Lsum p0 (fun i => Lsum p1 (fun j => Lsum ks (fun k => mul (mul (D0 i k) (D1 j k)) (sub (mul (s j) (ed i k)) (mul (r i) (eb j k)))))))
                         (Lsum p1 (fun j => mul (s j) (R1 j)))) (Lsum p0 (fun i => mul (r i) (R2 i)))).
    set (SG := Lsum p0 (fun x => Lsum p1 (fun y => mul (Ga x y) (mul (s x) (s y))))).
    destruct (any_bnd (add SG Err)) as [B' HB'].
    destruct (div_P pp WF L (fun m => sub (Lsum p1 (fun y => mul (s y) (frow (Xf y) m))) (Lsum p0 (fun x => mul (r x) (frow (Wf x) m))))
       (fun _ => R0) (add SG Err) B' (L_Qm b WB)) as (E & _ & E1 & E2).
    - intros m V. cbv beta.
      transitivity (sub (Lsum p1 (fun y => mul (s y) (smul (Pprod pp) (frow (Xf y) m)))) (Lsum p0 (fun x => mul (r x) (smul (Pprod pp) (frow (Wf x) m))))).
      { apply eqm_eq. rewrite (Lsum_ext p1 (fun y => mul (s y) (smul (Pprod pp) (frow (Xf y) m))) (fun y => smul (Pprod pp) (mul (s y) (frow (Xf y) m)))) by (intros; rewrite !smul_cst; ring).
        rewrite (Lsum_ext p0 (fun x => mul (r x) (smul (Pprod pp) (frow (Wf x) m))) (fun y => smul (Pprod pp) (mul (r y) (frow (Wf y) m)))) by (intros; rewrite !smul_cst; ring).
        rewrite !Lsum_smul, !smul_cst. ring. }
      rewrite (Lsum_eqm (qmod pp m) p1 _ (fun j => sub (mul (s j) (Lsum ks (fun k => mul (Lsum p0 (fun i => mul (sub (add (ed i k) (smul (gk b k) (s i))) (mul (r i) (sa k m))) (D0 i k))) (D1 j k)))) (mul (s j) (R1 j)))).
      2:{ intros j Hj. destruct (HX j Hj) as [_ X]. rewrite (X m V). apply eqm_eq. ring. }
      rewrite (Lsum_eqm (qmod pp m) p0 (fun x => mul (r x) (smul (Pprod pp) (frow (Wf x) m))) (fun i => sub (mul (r i) (Lsum ks (fun k => mul (Lsum p1 (fun j => mul (sub (eb j k) (mul (s j) (sa k m))) (D1 j k))) (D0 i k)))) (mul (r i) (R2 i)))).
      2:{ intros i Hi. destruct (HW i Hi) as [_ X]. rewrite (X m V). apply eqm_eq. ring. }
      rewrite !Lsum_sub, (triple_x p0 p1 ks), (triple_w p0 p1 ks).
      set (A := Lsum p0 (fun i => Lsum p1 (fun j => Lsum ks (fun k => mul (s j) _)))). set (C := Lsum p0 (fun i => Lsum p1 (fun j => Lsum ks (fun k => mul (r i) _)))).
      assert (AC : eqm (qmod pp m) (sub A C) (add SG (Lsum p0 (fun i => Lsum p1 (fun j => Lsum ks (fun k => mul (mul (D0 i k) (D1 j k)) (sub (mul (s j) (ed i k)) (mul (r i) (eb j k))))))))).
      { unfold A, C, SG. rewrite <- Lsum_sub, <- Lsum_add. apply Lsum_eqm. intros i Hi. rewrite <- Lsum_sub, <- Lsum_add. apply Lsum_eqm. intros j Hj.
        rewrite <- Lsum_sub.
        rewrite (Lsum_ext ks _ (fun k => add (mul (smul (gk b k) (mul (D0 i k) (D1 j k))) (mul (s i) (s j))) (mul (mul (D0 i k) (D1 j k)) (sub (mul (s j) (ed i k)) (mul (r i) (eb j k)))))) by (intros; rewrite !smul_cst; ring).
        rewrite Lsum_add. apply eqm_add; [|reflexivity]. rewrite Lsum_mul_r. apply eqm_mul; [|reflexivity]. apply (HG i Hi j Hj). assumption. }
      transitivity (add (sub (sub A C) (Lsum p1 (fun j => mul (s j) (R1 j)))) (Lsum p0 (fun i => mul (r i) (R2 i)))); [apply eqm_eq; ring|].
      rewrite AC. apply eqm_eq. unfold Err. rewrite smul_cst. ring.
    - exact HB'.
    - set (SX := Lsum p0 (fun x => Lsum p1 (fun y => mul (mul (Xv x) (Yv y)) (mul (s x) (s y))))).
      set (SR := Lsum p0 (fun x => Lsum p1 (fun y => mul (mul (s x) (s y)) (rho x y)))).
      assert (ES : add (smul (mprod b) SG) SR = smul (bT b * Pprod pp) SX).
      { unfold SG, SR, SX. rewrite <- !Lsum_smul, <- Lsum_add. apply Lsum_ext. intros i Hi. rewrite <- !Lsum_smul, <- Lsum_add. apply Lsum_ext. intros j Hj.
        destruct (HG i Hi j Hj) as (_ & A2 & _). fold (Ga i j) (rho i j) in A2.
        transitivity (mul (add (smul (mprod b) (Ga i j)) (rho i j)) (mul (s i) (s j))); [rewrite !smul_cst; ring|]. rewrite A2, !smul_cst. ring. }
      set (F := sub (smul (mprod b) E) (smul (bT b) SX)). exists E, F.
      assert (PF : smul (Pprod pp) F = sub (smul (mprod b) Err) SR).
      { apply R_ext. intros i Hi. unfold F. rewrite co_smul, !co_sub, !co_smul.
        assert (X1 : co (add SG Err) i = co (smul (Pprod pp) E) i) by (rewrite E1; reflexivity). assert (X2 : co (add (smul (mprod b) SG) SR) i = co (smul (bT b * Pprod pp) SX) i) by (rewrite ES; reflexivity).
        rewrite co_add, co_smul in X1. rewrite co_add, !co_smul in X2. 
        transitivity (mprod b * (Pprod pp * co E i) - bT b * Pprod pp * co SX i); [ring|]. rewrite <- X1, <- X2. ring. }
      split; [|split; [unfold F; apply R_ext; intros i Hi; rewrite co_add, co_sub, !co_smul; ring|]].
      + unfold cross_noise. apply bnd_div; [apply (Pprod_pos pp WF)|]. rewrite PF. apply bnd_sub.
        * assert (BE : bnd Err (Z.of_nat (length p0) * (Z.of_nat (length p1) * (Z.of_nat (be + be) * (Z.of_nat N * (Z.of_nat N * DB0 * DB1) * (Z.of_nat N * T * B + Z.of_nat N * T * B))))
             + Z.of_nat (length p1) * (Z.of_nat N * T * slack (Pprod pp)) + Z.of_nat (length p0) * (Z.of_nat N * T * slack (Pprod pp)))).
          { unfold Err. apply bnd_add; [apply bnd_sub|].
            + apply Lsum_bnd. intros i Hi. apply Lsum_bnd. intros j Hj. unfold ks. rewrite <- (seq_length (be + be) 0) at 2. apply Lsum_bnd. intros k Hk. apply in_seq in Hk.
              destruct (HB i (or_introl Hi)) as (Bi1 & Bi2 & Bi3). destruct (HB j (or_intror Hj)) as (Bj1 & Bj2 & Bj3). destruct (Bi3 k ltac:(lia)) as [_ ?]. destruct (Bj3 k ltac:(lia)) as [? _].
              apply bnd_mul; [apply bnd_mul; [apply (G0 i Hi); lia|apply (G1 j Hj); lia]|]. apply bnd_sub; apply bnd_mul; assumption.
            + apply Lsum_bnd. intros j Hj. apply bnd_mul; [apply HB; right; assumption|apply HX; assumption].
            + apply Lsum_bnd. intros i Hi. apply bnd_mul; [apply HB; left; assumption|apply HW; assumption]. }
          intros i Hi. rewrite co_smul, Z.abs_mul. pose proof (mprod_pos b WB). rewrite (Z.abs_eq (mprod b)) by lia. apply Z.mul_le_mono_nonneg_l; [lia|]. apply BE. assumption.
        * unfold SR. apply Lsum_bnd. intros i Hi. apply Lsum_bnd. intros j Hj. apply bnd_mul.
          -- apply bnd_mul; [apply (HB i (or_introl Hi))|apply (HB j (or_intror Hj))].
          -- apply (HG i Hi j Hj).
      + intros j Hj. rewrite (E2 j Hj). apply eqm_eq. ring.
  Qed.
End Cross.
