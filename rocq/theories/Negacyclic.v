(** The ring Z[X]/(X^N+1): carrier, operations, ring laws, automorphisms X -> X^g, congruences, norms.
    This is the mathematical ring the polynomials of lattigo's ring package live in (row by row); it is
    specification vocabulary, not a model of a particular function. *)
From Verif Require Import Base.
From Coq Require Import Ring Eqdep_dec.
Open Scope Z_scope.

(** ** Finite sums *)
Fixpoint sum (n : nat) (f : nat -> Z) : Z :=
  match n with O => 0 | S n' => sum n' f + f n' end.

Lemma sum_ext n f g : (forall i, (i < n)%nat -> f i = g i) -> sum n f = sum n g.
Proof.
  induction n as [|n IH]; intros H; cbn; [reflexivity|].
  rewrite IH by (intros; apply H; lia). rewrite H by lia. reflexivity.
Qed.
Lemma sum_add n f g : sum n (fun i => f i + g i) = sum n f + sum n g.
Proof. induction n as [|n IH]; cbn; [reflexivity|]. rewrite IH. lia. Qed.
Lemma sum_mul_l n c f : sum n (fun i => c * f i) = c * sum n f.
Proof. induction n as [|n IH]; cbn; [lia|]. rewrite IH. lia. Qed.
Lemma sum_mul_r n c f : sum n (fun i => f i * c) = sum n f * c.
Proof. induction n as [|n IH]; cbn; [lia|]. rewrite IH. lia. Qed.
Lemma sum_opp n f : sum n (fun i => - f i) = - sum n f.
Proof. induction n as [|n IH]; cbn; [lia|]. rewrite IH. lia. Qed.
Lemma sum_0 n : sum n (fun _ => 0) = 0.
Proof. induction n as [|n IH]; cbn; [reflexivity|]. rewrite IH. lia. Qed.
Lemma sum_zero n f : (forall i, (i < n)%nat -> f i = 0) -> sum n f = 0.
Proof. intros H. rewrite (sum_ext n f (fun _ => 0)) by assumption. apply sum_0. Qed.
Lemma sum_swap n m f : sum n (fun i => sum m (fun j => f i j)) = sum m (fun j => sum n (fun i => f i j)).
Proof.
  induction n as [|n IH]; cbn.
  - symmetry. apply sum_0.
  - rewrite IH, <- sum_add. reflexivity.
Qed.
Lemma sum_single n f k : (k < n)%nat -> (forall i, (i < n)%nat -> i <> k -> f i = 0) -> sum n f = f k.
Proof.
  induction n as [|n IH]; intros Hk H; [lia|]. cbn.
  destruct (Nat.eq_dec k n) as [->|Ne].
  - rewrite sum_zero; [lia|]. intros i Hi. apply H; lia.
  - rewrite IH by (try lia; intros; apply H; lia). rewrite (H n) by lia. lia.
Qed.
Lemma sum_head n f : sum (S n) f = f O + sum n (fun i => f (S i)).
Proof. induction n as [|n IH]; cbn [sum] in *; lia. Qed.
Lemma sum_plus n m f : sum (n + m) f = sum n f + sum m (fun i => f (n + i)%nat).
Proof.
  induction m as [|m IH]; cbn; [rewrite Nat.add_0_r; lia|].
  rewrite Nat.add_succ_r. cbn. rewrite IH. lia.
Qed.
Lemma sum_le n f g : (forall i, (i < n)%nat -> f i <= g i) -> sum n f <= sum n g.
Proof.
  induction n as [|n IH]; intros H; cbn; [lia|].
  assert (sum n f <= sum n g) by (apply IH; intros; apply H; lia). specialize (H n). lia.
Qed.
Lemma sum_abs n f : Z.abs (sum n f) <= sum n (fun i => Z.abs (f i)).
Proof. induction n as [|n IH]; cbn; lia. Qed.
Lemma sum_const n c : sum n (fun _ => c) = Z.of_nat n * c.
Proof. induction n as [|n IH]; cbn [sum]; lia. Qed.
Lemma sum_divide n f q : (forall i, (i < n)%nat -> (q | f i)) -> (q | sum n f).
Proof.
  induction n as [|n IH]; intros H; cbn; [exists 0; lia|].
  apply Z.divide_add_r; [apply IH; intros; apply H|apply H]; lia.
Qed.

(** ** Sums of periodic functions *)
Section Periodic.
  Variable N : nat.
  Variable f : Z -> Z.
  Hypothesis per : forall m, f (m + Z.of_nat N) = f m.

  Lemma per_shift1 c : sum N (fun i => f (Z.of_nat i + c + 1)) = sum N (fun i => f (Z.of_nat i + c)).
  Proof.
    destruct N as [|n] eqn:EN; [reflexivity|].
    rewrite (sum_head n (fun i => f (Z.of_nat i + c))). cbn [sum].
    assert (E : sum n (fun i => f (Z.of_nat i + c + 1)) = sum n (fun i => f (Z.of_nat (S i) + c))).
    { apply sum_ext. intros i _. f_equal. lia. }
    rewrite E.
    replace (f (Z.of_nat n + c + 1)) with (f (Z.of_nat 0 + c)).
    - lia.
    - rewrite <- per. f_equal. lia.
  Qed.

  Lemma per_shift c : sum N (fun i => f (Z.of_nat i + c)) = sum N (fun i => f (Z.of_nat i)).
  Proof.
    assert (E0 : sum N (fun i => f (Z.of_nat i + 0)) = sum N (fun i => f (Z.of_nat i)))
      by (apply sum_ext; intros; f_equal; lia).
    rewrite <- E0.
    pattern c. apply Z.bi_induction; clear c.
    - intros a b ->. reflexivity.
    - reflexivity.
    - intros c. unfold Z.succ.
      rewrite (sum_ext N (fun i => f (Z.of_nat i + (c + 1))) (fun i => f (Z.of_nat i + c + 1))) by (intros; f_equal; lia).
      rewrite per_shift1. tauto.
  Qed.

  Lemma sum_rev n g : sum n (fun i => g (n - 1 - i)%nat) = sum n g.
  Proof.
    revert g; induction n as [|n IH]; intros g; [reflexivity|].
    rewrite sum_head. cbn [sum]. replace (S n - 1 - 0)%nat with n by lia.
    rewrite <- (IH g).
    rewrite (sum_ext n (fun i => g (S n - 1 - S i)%nat) (fun i => g (n - 1 - i)%nat)) by (intros; f_equal; lia). lia.
  Qed.

  Lemma per_reflect c : sum N (fun i => f (c - Z.of_nat i)) = sum N (fun i => f (Z.of_nat i)).
  Proof.
    rewrite <- (per_shift (c - Z.of_nat N + 1)).
    rewrite <- (sum_rev N (fun i => f (Z.of_nat i + (c - Z.of_nat N + 1)))).
    apply sum_ext. intros i Hi. f_equal. lia.
  Qed.

  Lemma per_mul m k : f (m + k * Z.of_nat N) = f m.
  Proof.
    revert m. apply (Z.bi_induction (fun k => forall m, f (m + k * Z.of_nat N) = f m)).
    - intros a b ->. reflexivity.
    - intros m. f_equal; lia.
    - intros j. split; intros H m.
      + rewrite <- (H m). rewrite <- (per (m + j * Z.of_nat N)). f_equal. lia.
      + rewrite <- (H m). rewrite <- (per (m + j * Z.of_nat N)). f_equal. lia.
  Qed.

  Lemma per_mod m : (0 < N)%nat -> f (m mod Z.of_nat N) = f m.
  Proof.
    intros H. rewrite <- (per_mul (m mod Z.of_nat N) (m / Z.of_nat N)). f_equal.
    rewrite (Z.div_mod m (Z.of_nat N)) at 3 by lia. lia.
  Qed.

  (** Sum over a permutation of the residues *)
  Lemma sum_perm l : forall g, Permutation l (seq 0 N) ->
    fold_right (fun i s => g i + s) 0 l = sum N g.
  Proof.
    intros g P.
    assert (E : forall l1 l2, Permutation l1 l2 ->
      fold_right (fun i s => g i + s) 0 l1 = fold_right (fun i s => g i + s) 0 l2).
    { induction 1; cbn; lia. }
    rewrite (E _ _ P). clear. 
    assert (G : forall n a, fold_right (fun i s => g i + s) 0 (seq a n) = sum n (fun i => g (a + i)%nat)).
    { induction n as [|n IH]; intros a; [reflexivity|].
      rewrite sum_head, Nat.add_0_r. cbn [seq fold_right]. rewrite IH. f_equal.
      apply sum_ext. intros. f_equal. lia. }
    rewrite G. apply sum_ext. intros. f_equal.
  Qed.

  Lemma per_scale h : Z.gcd h (Z.of_nat N) = 1 ->
    sum N (fun i => f (h * Z.of_nat i)) = sum N (fun i => f (Z.of_nat i)).
  Proof.
    intros G.
    destruct (Nat.eq_dec N 0) as [->|N0]; [reflexivity|].
    set (p := fun i => Z.to_nat ((h * Z.of_nat i) mod Z.of_nat N)).
    assert (PB : forall i, (p i < N)%nat).
    { intros i. unfold p. pose proof (Z.mod_pos_bound (h * Z.of_nat i) (Z.of_nat N)). lia. }
    assert (PZ : forall i, Z.of_nat (p i) = (h * Z.of_nat i) mod Z.of_nat N).
    { intros i. unfold p. rewrite Z2Nat.id; [reflexivity|]. apply Z.mod_pos_bound. lia. }
    assert (INJ : forall i j, (i < N)%nat -> (j < N)%nat -> p i = p j -> i = j).
    { intros i j Hi Hj E. apply (f_equal Z.of_nat) in E. rewrite !PZ in E.
      assert (D : (Z.of_nat N | h * (Z.of_nat i - Z.of_nat j))).
      { apply Z.mod_divide; [lia|]. rewrite Z.mul_sub_distr_l, Zminus_mod, E, Z.sub_diag. apply Z.mod_0_l. lia. }
      apply Z.gauss in D; [|rewrite Z.gcd_comm; assumption].
      destruct D as [c D]. assert (c = 0) by nia. subst c. lia. }
    assert (PM : Permutation (map p (seq 0 N)) (seq 0 N)).
    { apply NoDup_Permutation_bis.
      - apply NoDup_map_in; [|apply seq_NoDup].
        intros i j Hi Hj. apply in_seq in Hi, Hj. apply INJ; lia.
      - rewrite map_length. reflexivity.
      - intros x Hx. apply in_map_iff in Hx. destruct Hx as (i & <- & _). apply in_seq. specialize (PB i). lia. }
    rewrite <- (sum_perm _ (fun i => f (Z.of_nat i)) PM).
    rewrite <- (sum_perm (seq 0 N) (fun i => f (h * Z.of_nat i)) (Permutation_refl _)).
    clear PM. induction (seq 0 N) as [|i l IH]; [reflexivity|]. cbn [map fold_right].
    rewrite IH. f_equal. rewrite PZ. symmetry. apply per_mod. lia.
  Qed.
End Periodic.

(** ** The carrier *)
Section Ring.
  Context {N : nat}.

  Definition R : Type := { l : list Z | (length l =? N)%nat = true }.

  Lemma mkR_len (f : nat -> Z) : (length (map f (seq 0 N)) =? N)%nat = true.
  Proof. rewrite map_length, seq_length. apply Nat.eqb_refl. Qed.
  Definition mkR (f : nat -> Z) : R := exist _ (map f (seq 0 N)) (mkR_len f).
  Definition coefs (a : R) : list Z := proj1_sig a.
  Definition co (a : R) (i : nat) : Z := nth i (coefs a) 0.

  Lemma co_mkR f i : (i < N)%nat -> co (mkR f) i = f i.
  Proof.
    intros H. unfold co, coefs, mkR; cbn.
    rewrite nth_indep with (d' := f 0%nat) by (rewrite map_length, seq_length; assumption).
    rewrite map_nth, seq_nth by assumption. reflexivity.
  Qed.

  Lemma R_ext (a b : R) : (forall i, (i < N)%nat -> co a i = co b i) -> a = b.
  Proof.
    destruct a as [l Hl], b as [m Hm]. unfold co, coefs; cbn. intros H.
    assert (l = m).
    { apply Nat.eqb_eq in Hl, Hm. apply nth_ext with (d := 0) (d' := 0); [congruence|].
      intros n Hn. apply H. congruence. }
    subst m. f_equal. apply UIP_dec. apply bool_dec.
  Qed.

  Lemma mkR_ext f g : (forall i, (i < N)%nat -> f i = g i) -> mkR f = mkR g.
  Proof. intros H. apply R_ext. intros i Hi. rewrite !co_mkR by assumption. auto. Qed.

  Lemma mkR_co a : mkR (co a) = a.
  Proof. apply R_ext. intros. apply co_mkR. assumption. Qed.

  Lemma co_out a i : (N <= i)%nat -> co a i = 0.
  Proof.
    destruct a as [l Hl]; unfold co, coefs; cbn. intros. apply Nat.eqb_eq in Hl. apply nth_overflow. lia.
  Qed.

  Definition R0 : R := mkR (fun _ => 0).
  Definition cst (z : Z) : R := mkR (fun i => if (i =? 0)%nat then z else 0).
  Definition R1 : R := cst 1.
  Definition add (a b : R) : R := mkR (fun i => co a i + co b i).
  Definition opp (a : R) : R := mkR (fun i => - co a i).
  Definition sub (a b : R) : R := mkR (fun i => co a i - co b i).
  Definition smul (z : Z) (a : R) : R := mkR (fun i => z * co a i).

  (** The antiperiodic extension of the coefficient sequence: X^N = -1. *)
  Definition sgn (k : Z) : Z := if Z.even k then 1 else -1.
  Definition ext (a : R) (m : Z) : Z := sgn (m / Z.of_nat N) * co a (Z.to_nat (m mod Z.of_nat N)).

  (** Product: coefficient k is sum_i a_i * b~(k-i). *)
  Definition mul (a b : R) : R :=
    mkR (fun k => sum N (fun i => co a i * ext b (Z.of_nat k - Z.of_nat i))).

  Lemma sgn_succ k : sgn (k + 1) = - sgn k.
  Proof. unfold sgn. rewrite Z.even_add. destruct (Z.even k); reflexivity. Qed.
  Lemma sgn_sq k : sgn k * sgn k = 1.
  Proof. unfold sgn. destruct (Z.even k); reflexivity. Qed.
  Lemma sgn_abs k x : Z.abs (sgn k * x) = Z.abs x.
  Proof. unfold sgn. destruct (Z.even k); lia. Qed.

  Section Pos.
  Hypothesis Npos : (0 < N)%nat.
  Notation NZ := (Z.of_nat N).

  Lemma ext_N a m : ext a (m + NZ) = - ext a m.
  Proof.
    unfold ext. replace (m + NZ) with (m + 1 * NZ) by lia.
    rewrite Z.div_add, Z.mod_add, sgn_succ by lia. lia.
  Qed.
  Lemma ext_2N a m : ext a (m + 2 * NZ) = ext a m.
  Proof. replace (m + 2 * NZ) with (m + NZ + NZ) by lia. rewrite !ext_N. lia. Qed.
  Lemma ext_co a i : (i < N)%nat -> ext a (Z.of_nat i) = co a i.
  Proof.
    intros H. unfold ext. rewrite Z.div_small, Z.mod_small, Nat2Z.id by lia. change (sgn 0) with 1. lia.
  Qed.
  Lemma ext_kN a m k : ext a (m + k * NZ) = sgn k * ext a m.
  Proof.
    unfold ext. rewrite Z.div_add, Z.mod_add by lia.
    replace (sgn (m / NZ + k)) with (sgn k * sgn (m / NZ)); [lia|].
    unfold sgn. rewrite Z.even_add. destruct (Z.even k), (Z.even (m / NZ)); reflexivity.
  Qed.

  (** A function that is antiperiodic is determined on [0,N). *)
  Lemma antiper_ext (f g : Z -> Z) :
    (forall m, f (m + NZ) = - f m) -> (forall m, g (m + NZ) = - g m) ->
    (forall i, (i < N)%nat -> f (Z.of_nat i) = g (Z.of_nat i)) -> forall m, f m = g m.
  Proof.
    intros Hf Hg H m.
    assert (K : forall h : Z -> Z, (forall m, h (m + NZ) = - h m) -> forall k m, h (m + k * NZ) = sgn k * h m).
    { intros h Hh. apply (Z.bi_induction (fun k => forall m, h (m + k * NZ) = sgn k * h m)).
      - intros a b ->. reflexivity.
      - intros j. cbn. rewrite Z.add_0_r. destruct (h j); reflexivity.
      - intros j. unfold Z.succ. split; intros IH x; specialize (IH x); rewrite ?sgn_succ in *.
        + replace (x + (j + 1) * NZ) with (x + j * NZ + NZ) by lia. rewrite Hh. lia.
        + replace (x + (j + 1) * NZ) with (x + j * NZ + NZ) in IH by lia. rewrite Hh in IH. lia. }
    rewrite (Z.div_mod m NZ) by lia.
    replace (NZ * (m / NZ) + m mod NZ) with (m mod NZ + (m / NZ) * NZ) by lia.
    rewrite (K f), (K g) by assumption. f_equal.
    pose proof (Z.mod_pos_bound m NZ).
    rewrite <- (Z2Nat.id (m mod NZ)) by lia. apply H. lia.
  Qed.

  Lemma ext_mul a b m : ext (mul a b) m = sum N (fun i => co a i * ext b (m - Z.of_nat i)).
  Proof.
    apply (antiper_ext (ext (mul a b)) (fun m => sum N (fun i => co a i * ext b (m - Z.of_nat i)))).
    - apply ext_N.
    - intros x. rewrite <- sum_opp. apply sum_ext. intros i _.
      replace (x + NZ - Z.of_nat i) with (x - Z.of_nat i + NZ) by lia. rewrite ext_N. lia.
    - intros k Hk. rewrite ext_co by assumption. unfold mul. rewrite co_mkR by assumption. reflexivity.
  Qed.

  Lemma ext_mul_ext a b m : ext (mul a b) m = sum N (fun i => ext a (Z.of_nat i) * ext b (m - Z.of_nat i)).
  Proof. rewrite ext_mul. apply sum_ext. intros. rewrite ext_co by assumption. reflexivity. Qed.

  Lemma prod_per a b m : forall x, ext a (x + NZ) * ext b (m - (x + NZ)) = ext a x * ext b (m - x).
  Proof.
    intros x. rewrite ext_N.
    assert (E : ext b (m - x) = - ext b (m - (x + NZ))) by (rewrite <- ext_N; f_equal; lia).
    rewrite E. lia.
  Qed.

  Lemma mul_comm a b : mul a b = mul b a.
  Proof.
    apply R_ext. intros k Hk.
    rewrite <- !ext_co, !ext_mul_ext by assumption.
    rewrite <- (per_reflect N (fun x => ext a x * ext b (Z.of_nat k - x)) (prod_per a b (Z.of_nat k)) (Z.of_nat k)).
    apply sum_ext. intros i _. rewrite Z.mul_comm. f_equal; f_equal; lia.
  Qed.

  Lemma mul_assoc a b c : mul a (mul b c) = mul (mul a b) c.
  Proof.
    apply R_ext. intros k Hk. rewrite <- !ext_co by assumption.
    rewrite ext_mul_ext, (ext_mul_ext (mul a b) c).
    rewrite (sum_ext N _ (fun i => sum N (fun j => ext a (Z.of_nat i) * (ext b (Z.of_nat j) * ext c (Z.of_nat k - Z.of_nat i - Z.of_nat j)))))
      by (intros; rewrite ext_mul_ext, sum_mul_l; reflexivity).
    rewrite (sum_ext N (fun i => ext (mul a b) (Z.of_nat i) * _)
      (fun j => sum N (fun i => ext a (Z.of_nat i) * (ext b (Z.of_nat j - Z.of_nat i) * ext c (Z.of_nat k - Z.of_nat j)))))
      by (intros; rewrite ext_mul_ext, <- sum_mul_r; apply sum_ext; intros; lia).
    rewrite (sum_swap N N (fun j i => ext a (Z.of_nat i) * (ext b (Z.of_nat j - Z.of_nat i) * ext c (Z.of_nat k - Z.of_nat j)))).
    apply sum_ext. intros i _. rewrite !sum_mul_l. f_equal.
    set (f := fun x => ext b (x - Z.of_nat i) * ext c (Z.of_nat k - x)).
    assert (Pf : forall x, f (x + NZ) = f x).
    { intros x. unfold f. replace (x + NZ - Z.of_nat i) with (x - Z.of_nat i + NZ) by lia. rewrite ext_N.
      assert (E : ext c (Z.of_nat k - x) = - ext c (Z.of_nat k - (x + NZ))) by (rewrite <- ext_N; f_equal; lia).
      rewrite E. lia. }
    transitivity (sum N (fun j => f (Z.of_nat j))); [|reflexivity].
    rewrite <- (per_shift N f Pf (Z.of_nat i)). apply sum_ext. intros j _. unfold f. f_equal; f_equal; lia.
  Qed.

  Lemma ext_add a b m : ext (add a b) m = ext a m + ext b m.
  Proof.
    unfold ext, add. rewrite co_mkR; [lia|]. pose proof (Z.mod_pos_bound m NZ). lia.
  Qed.
  Lemma ext_opp a m : ext (opp a) m = - ext a m.
  Proof.
    unfold ext, opp. rewrite co_mkR; [lia|]. pose proof (Z.mod_pos_bound m NZ). lia.
  Qed.
  Lemma ext_smul z a m : ext (smul z a) m = z * ext a m.
  Proof.
    unfold ext, smul. rewrite co_mkR; [lia|]. pose proof (Z.mod_pos_bound m NZ). lia.
  Qed.

  Lemma mul_add_l a b c : mul (add a b) c = add (mul a c) (mul b c).
  Proof.
    apply R_ext. intros k Hk. unfold add at 2. rewrite co_mkR by assumption.
    unfold mul. rewrite !co_mkR by assumption. rewrite <- sum_add. apply sum_ext. intros i Hi.
    unfold add. rewrite co_mkR by assumption. lia.
  Qed.

  Lemma mul_cst z a : mul (cst z) a = smul z a.
  Proof.
    apply R_ext. intros k Hk. unfold mul, smul. rewrite !co_mkR by assumption.
    rewrite (sum_single N _ O); [|lia|].
    2:{ intros i Hi Ni. unfold cst. rewrite co_mkR by assumption. destruct i; [congruence|reflexivity]. }
    unfold cst. rewrite co_mkR by assumption. cbn [Nat.eqb]. rewrite Z.sub_0_r, ext_co by assumption. reflexivity.
  Qed.

  Lemma mul_1_l a : mul R1 a = a.
  Proof. unfold R1. rewrite mul_cst. apply R_ext. intros. unfold smul. rewrite co_mkR by assumption. lia. Qed.
  End Pos.

  Lemma N0_all (a b : R) : N = O -> a = b.
  Proof. intros E. apply R_ext. lia. Qed.

  Lemma R_ring_theory : ring_theory R0 R1 add mul sub opp (@eq R).
  Proof.
    destruct (Nat.eq_dec N 0) as [E|E].
    { constructor; intros; apply N0_all; assumption. }
    assert (P : (0 < N)%nat) by lia.
    constructor.
    - intros a. apply R_ext. intros i Hi. unfold add, R0. rewrite !co_mkR by assumption. lia.
    - intros a b. apply mkR_ext. intros; lia.
    - intros a b c. apply R_ext. intros i Hi. unfold add. rewrite !co_mkR by assumption. lia.
    - apply mul_1_l; assumption.
    - apply mul_comm; assumption.
    - intros. apply mul_assoc; assumption.
    - intros. apply mul_add_l; assumption.
    - intros a b. apply R_ext. intros i Hi. unfold sub, add, opp. rewrite !co_mkR by assumption. lia.
    - intros a. apply R_ext. intros i Hi. unfold add, opp, R0. rewrite !co_mkR by assumption. lia.
  Qed.

  Add Ring R_ring : R_ring_theory.

  (** scalars *)
  Lemma smul_cst z a : smul z a = mul (cst z) a.
  Proof.
    destruct (Nat.eq_dec N 0) as [E|E]; [apply N0_all; assumption|]. symmetry; apply mul_cst. lia.
  Qed.
  Lemma cst_add x y : cst (x + y) = add (cst x) (cst y).
  Proof. apply R_ext. intros i Hi. unfold cst, add. rewrite !co_mkR by assumption. destruct (i =? 0)%nat; lia. Qed.
  Lemma cst_mul x y : cst (x * y) = mul (cst x) (cst y).
  Proof.
    rewrite <- smul_cst. apply R_ext. intros i Hi. unfold cst, smul. rewrite !co_mkR by assumption. destruct (i =? 0)%nat; lia.
  Qed.
  Lemma cst_opp x : cst (- x) = opp (cst x).
  Proof. apply R_ext. intros i Hi. unfold cst, opp. rewrite !co_mkR by assumption. destruct (i =? 0)%nat; lia. Qed.
  Lemma cst_0 : cst 0 = R0.
  Proof. apply mkR_ext. intros i Hi. destruct (i =? 0)%nat; lia. Qed.
  Lemma cst_1 : cst 1 = R1.
  Proof. reflexivity. Qed.

  Lemma co_add a b i : co (add a b) i = co a i + co b i.
  Proof.
    destruct (Nat.lt_ge_cases i N) as [H|H]; [unfold add; apply co_mkR; assumption|].
    rewrite !co_out by assumption. lia.
  Qed.
  Lemma co_sub a b i : co (sub a b) i = co a i - co b i.
  Proof.
    destruct (Nat.lt_ge_cases i N) as [H|H]; [unfold sub; apply co_mkR; assumption|].
    rewrite !co_out by assumption. lia.
  Qed.
  Lemma co_opp a i : co (opp a) i = - co a i.
  Proof.
    destruct (Nat.lt_ge_cases i N) as [H|H]; [unfold opp; apply co_mkR; assumption|].
    rewrite !co_out by assumption. lia.
  Qed.
  Lemma co_smul z a i : co (smul z a) i = z * co a i.
  Proof.
    destruct (Nat.lt_ge_cases i N) as [H|H]; [unfold smul; apply co_mkR; assumption|].
    rewrite !co_out by assumption. lia.
  Qed.
  Lemma co_R0 i : co R0 i = 0.
  Proof.
    destruct (Nat.lt_ge_cases i N) as [H|H]; [unfold R0; apply co_mkR; assumption|]. apply co_out; assumption.
  Qed.

  (** ** Congruence modulo an integer *)
  Definition eqm (q : Z) (a b : R) : Prop := exists c, a = add b (mul (cst q) c).

  Lemma eqm_refl q a : eqm q a a.
  Proof. exists R0. ring. Qed.
  Lemma eqm_sym q a b : eqm q a b -> eqm q b a.
  Proof. intros [c ->]. exists (opp c). ring. Qed.
  Lemma eqm_trans q a b c : eqm q a b -> eqm q b c -> eqm q a c.
  Proof. intros [x ->] [y ->]. exists (add x y). ring. Qed.
  Lemma eqm_add q a a' b b' : eqm q a a' -> eqm q b b' -> eqm q (add a b) (add a' b').
  Proof. intros [x ->] [y ->]. exists (add x y). ring. Qed.
  Lemma eqm_sub q a a' b b' : eqm q a a' -> eqm q b b' -> eqm q (sub a b) (sub a' b').
  Proof. intros [x ->] [y ->]. exists (sub x y). ring. Qed.
  Lemma eqm_opp q a a' : eqm q a a' -> eqm q (opp a) (opp a').
  Proof. intros [x ->]. exists (opp x). ring. Qed.
  Lemma eqm_mul q a a' b b' : eqm q a a' -> eqm q b b' -> eqm q (mul a b) (mul a' b').
  Proof. intros [x ->] [y ->]. exists (add (add (mul a' y) (mul x b')) (mul (mul (cst q) x) y)). ring. Qed.

  Lemma eqm_co q a b : eqm q a b <-> forall i, (i < N)%nat -> (q | co a i - co b i).
  Proof.
    split.
    - intros [c ->] i Hi. rewrite co_add, <- smul_cst, co_smul. exists (co c i). lia.
    - intros H. exists (mkR (fun i => (co a i - co b i) / q)). apply R_ext. intros i Hi.
      rewrite co_add, <- smul_cst, co_smul, co_mkR by assumption.
      destruct (Z.eq_dec q 0) as [->|Nq].
      + destruct (H i Hi) as [x Hx]. lia.
      + destruct (H i Hi) as [x Hx]. rewrite Hx, Z.div_mul by assumption. lia.
  Qed.

  Lemma eqm_eqmod q a b : q <> 0 -> (eqm q a b <-> forall i, (i < N)%nat -> co a i mod q = co b i mod q).
  Proof.
    intros Hq. rewrite eqm_co. split; intros H i Hi; specialize (H i Hi).
    - destruct H as [x Hx]. replace (co a i) with (co b i + x * q) by lia. apply Z.mod_add. assumption.
    - apply Z.mod_divide; [assumption|]. rewrite Zminus_mod, H, Z.sub_diag. apply Z.mod_0_l. assumption.
  Qed.

  Lemma eqm_divide q q' a b : (q' | q) -> eqm q a b -> eqm q' a b.
  Proof. intros [k ->] [c ->]. exists (mul (cst k) c). rewrite cst_mul. ring. Qed.

  (** cancellation of a unit *)
  Lemma eqm_cancel q k a b : Z.gcd k q = 1 -> eqm q (smul k a) (smul k b) -> eqm q a b.
  Proof.
    intros G. rewrite !eqm_co. intros H i Hi. specialize (H i Hi). rewrite !co_smul in H.
    rewrite <- Z.mul_sub_distr_l in H. apply Z.gauss in H; [assumption|]. rewrite Z.gcd_comm. assumption.
  Qed.

  (** coefficient-wise reduction, canonical representative *)
  Definition redm (q : Z) (a : R) : R := mkR (fun i => co a i mod q).
  Lemma redm_eqm q a : eqm q (redm q a) a.
  Proof.
    apply eqm_co. intros i Hi. unfold redm. rewrite co_mkR by assumption.
    exists (- (co a i / q)). destruct (Z.eq_dec q 0) as [->|Nq]; [rewrite Zmod_0_r; lia|].
    pose proof (Z.div_mod (co a i) q). lia.
  Qed.
  Lemma redm_unique q a b : q <> 0 -> (redm q a = redm q b <-> eqm q a b).
  Proof.
    intros Hq. split.
    - intros E. eapply eqm_trans; [apply eqm_sym, redm_eqm|]. rewrite E. apply redm_eqm.
    - intros H. apply R_ext. intros i Hi. unfold redm. rewrite !co_mkR by assumption.
      apply (proj1 (eqm_eqmod q a b Hq)); assumption.
  Qed.

  (** ** Norms *)
  Definition bnd (a : R) (B : Z) : Prop := forall i, (i < N)%nat -> Z.abs (co a i) <= B.

  Lemma bnd_le a B B' : bnd a B -> B <= B' -> bnd a B'.
  Proof. intros H L i Hi. specialize (H i Hi). lia. Qed.
  Lemma bnd_add a b A B : bnd a A -> bnd b B -> bnd (add a b) (A + B).
  Proof. intros Ha Hb i Hi. rewrite co_add. specialize (Ha i Hi). specialize (Hb i Hi). lia. Qed.
  Lemma bnd_sub a b A B : bnd a A -> bnd b B -> bnd (sub a b) (A + B).
  Proof. intros Ha Hb i Hi. rewrite co_sub. specialize (Ha i Hi). specialize (Hb i Hi). lia. Qed.
  Lemma bnd_opp a A : bnd a A -> bnd (opp a) A.
  Proof. intros Ha i Hi. rewrite co_opp. specialize (Ha i Hi). lia. Qed.
  Lemma bnd_R0 : bnd R0 0.
  Proof. intros i Hi. rewrite co_R0. cbn; lia. Qed.
  Lemma bnd_cst z : bnd (cst z) (Z.abs z).
  Proof. intros i Hi. unfold cst. rewrite co_mkR by assumption. destruct (i =? 0)%nat; lia. Qed.
  Lemma bnd_smul z a A : bnd a A -> bnd (smul z a) (Z.abs z * A).
  Proof. intros Ha i Hi. rewrite co_smul, Z.abs_mul. specialize (Ha i Hi). nia. Qed.
  Lemma bnd_nonneg a B : (0 < N)%nat -> bnd a B -> 0 <= B.
  Proof. intros P H. specialize (H O P). lia. Qed.
  Lemma ext_bnd a A m : (0 < N)%nat -> bnd a A -> Z.abs (ext a m) <= A.
  Proof.
    intros P H. unfold ext. rewrite sgn_abs. apply H. pose proof (Z.mod_pos_bound m (Z.of_nat N)). lia.
  Qed.
  Lemma bnd_mul a b A B : bnd a A -> bnd b B -> bnd (mul a b) (Z.of_nat N * A * B).
  Proof.
    intros Ha Hb k Hk. unfold mul. rewrite co_mkR by assumption.
    eapply Z.le_trans; [apply sum_abs|].
    eapply Z.le_trans; [apply (sum_le _ _ (fun _ => A * B))|].
    - intros i Hi. rewrite Z.abs_mul. specialize (Ha i Hi).
      pose proof (ext_bnd b B (Z.of_nat k - Z.of_nat i) ltac:(lia) Hb). nia.
    - rewrite sum_const. lia.
  Qed.

  (** exact division *)
  Lemma eqm0_div P a B : 0 < P -> eqm P a R0 -> bnd a B -> exists c, a = smul P c /\ bnd c (B / P).
  Proof.
    intros HP H HB. exists (mkR (fun i => co a i / P)).
    rewrite eqm_co in H.
    assert (E : forall i, (i < N)%nat -> co a i = P * (co a i / P)).
    { intros i Hi. destruct (H i Hi) as [x Hx]. rewrite co_R0 in Hx. replace (co a i) with (x * P) by lia.
      rewrite Z.div_mul by lia. lia. }
    split.
    - apply R_ext. intros i Hi. rewrite co_smul, co_mkR by assumption. apply E; assumption.
    - intros i Hi. rewrite co_mkR by assumption. specialize (HB i Hi). specialize (E i Hi).
      apply Z.div_le_lower_bound; [assumption|]. rewrite E, Z.abs_mul in HB. lia.
  Qed.

  (** ** Automorphisms X -> X^g.  [aut h] is written with the inverse exponent: coefficient k of the image is a~(k h). *)
  Definition aut (h : Z) (a : R) : R := mkR (fun k => ext a (Z.of_nat k * h)).

  Lemma ext_aut h a m : (0 < N)%nat -> Z.odd h = true -> ext (aut h a) m = ext a (m * h).
  Proof.
    intros P O. apply (antiper_ext P (ext (aut h a)) (fun m => ext a (m * h))).
    - apply ext_N; assumption.
    - intros x. replace ((x + Z.of_nat N) * h) with (x * h + h * Z.of_nat N) by lia.
      rewrite ext_kN by assumption. unfold sgn. rewrite <- Z.negb_odd, O. cbn [negb]. lia.
    - intros i Hi. rewrite ext_co by assumption. unfold aut. rewrite co_mkR by assumption. reflexivity.
  Qed.

  Lemma aut_add h a b : aut h (add a b) = add (aut h a) (aut h b).
  Proof.
    destruct (Nat.eq_dec N 0) as [E|E]; [apply N0_all; assumption|].
    apply R_ext. intros i Hi. rewrite co_add. unfold aut. rewrite !co_mkR by assumption. apply ext_add. lia.
  Qed.
  Lemma aut_opp h a : aut h (opp a) = opp (aut h a).
  Proof.
    destruct (Nat.eq_dec N 0) as [E|E]; [apply N0_all; assumption|].
    apply R_ext. intros i Hi. rewrite co_opp. unfold aut. rewrite !co_mkR by assumption. apply ext_opp. lia.
  Qed.
  Lemma aut_sub h a b : aut h (sub a b) = sub (aut h a) (aut h b).
  Proof.
    replace (sub a b) with (add a (opp b)) by ring. rewrite aut_add, aut_opp. ring.
  Qed.
  Lemma aut_mul h a b : Z.gcd h (Z.of_nat N) = 1 -> Z.odd h = true -> aut h (mul a b) = mul (aut h a) (aut h b).
  Proof.
    intros G O.
    destruct (Nat.eq_dec N 0) as [E|E]; [apply N0_all; assumption|]. assert (P : (0 < N)%nat) by lia.
    apply R_ext. intros k Hk. rewrite <- !ext_co by assumption.
    rewrite ext_aut, !ext_mul_ext by assumption.
    set (f := fun x => ext a x * ext b (Z.of_nat k * h - x)).
    transitivity (sum N (fun i => f (Z.of_nat i))); [reflexivity|].
    rewrite <- (per_scale N f (prod_per P a b (Z.of_nat k * h)) h G).
    apply sum_ext. intros i _. unfold f. rewrite !ext_aut by assumption. f_equal; f_equal; lia.
  Qed.

  Lemma aut_comp h h' a : (0 < N)%nat -> Z.odd h' = true -> aut h (aut h' a) = aut (h * h') a.
  Proof.
    intros P O. apply R_ext. intros k Hk. unfold aut at 1 3. rewrite !co_mkR by assumption.
    rewrite ext_aut by assumption. f_equal. lia.
  Qed.

  Lemma aut_mod h h' a : (0 < N)%nat -> (2 * Z.of_nat N | h - h') -> aut h a = aut h' a.
  Proof.
    intros P [c D]. apply mkR_ext. intros k Hk.
    replace (Z.of_nat k * h) with (Z.of_nat k * h' + (Z.of_nat k * c * 2) * Z.of_nat N) by nia.
    rewrite ext_kN by assumption. unfold sgn. rewrite Z.even_mul. change (Z.even 2) with true. rewrite Bool.orb_true_r. lia.
  Qed.

  Lemma aut_1 a : (0 < N)%nat -> aut 1 a = a.
  Proof. intros P. apply R_ext. intros k Hk. unfold aut. rewrite co_mkR, Z.mul_1_r by assumption. apply ext_co; assumption. Qed.

  Lemma aut_smul h z a : aut h (smul z a) = smul z (aut h a).
  Proof.
    destruct (Nat.eq_dec N 0) as [E|E]; [apply N0_all; assumption|].
    apply R_ext. intros i Hi. rewrite co_smul. unfold aut. rewrite !co_mkR by assumption. apply ext_smul. lia.
  Qed.

  Lemma aut_bnd h a A : bnd a A -> bnd (aut h a) A.
  Proof. intros H i Hi. unfold aut. rewrite co_mkR by assumption. apply ext_bnd; [lia|assumption]. Qed.

  Lemma aut_eqm h q a b : eqm q a b -> eqm q (aut h a) (aut h b).
  Proof. intros [c ->]. exists (aut h c). rewrite aut_add, <- !smul_cst, aut_smul. reflexivity. Qed.
End Ring.
Arguments R : clear implicits.
