(** Slots: the values of a plaintext polynomial at the roots of X^N + 1 that carry the packed messages.
    Specification used by lattigo's encoders (mkckks/mkbfv use ckks.Encoder and bfv.Encoder unchanged): slot j of the first row is
    the value at zeta^(5^j), slot j of the second row the value at zeta^-(5^j), where zeta^N = -1; zeta is exp(i pi/N) for CKKS
    and a root modulo the plaintext modulus t for BFV.  Everything is stated for an arbitrary commutative ring. *)
From Verif Require Import Base NumTheory Negacyclic Ntt Word BasisExt BasisExtProofs Rows RlweModel KeyGenModel Galois.
From Coq Require Import Znumtheory Zpow_facts Setoid Morphisms Ring_theory InitialRing.
Open Scope Z_scope.

Section Slots.
  Context {N : nat} {K : Type} (rO rI : K) (radd rmul rsub : K -> K -> K) (ropp : K -> K) (req : K -> K -> Prop).
  Context (Eqv : Equivalence req) (Ext : ring_eq_ext radd rmul ropp req) (RT : ring_theory rO rI radd rmul rsub ropp req).
  Add Ring Kring : RT (setoid Eqv Ext).
  Notation "x == y" := (req x y) (at level 70).
  Notation R := (R N).

  Instance radd_ext : Proper (req ==> req ==> req) radd.
  Proof. intros a b H c d H'. apply (Radd_ext Ext); assumption. Qed.
  Instance rmul_ext : Proper (req ==> req ==> req) rmul.
  Proof. intros a b H c d H'. apply (Rmul_ext Ext); assumption. Qed.
  Instance ropp_ext : Proper (req ==> req) ropp.
  Proof. intros a b H. apply (Ropp_ext Ext); assumption. Qed.

  (** integers in K *)
  Definition ofZ (z : Z) : K := gen_phiZ rO rI radd rmul ropp z.
  (** powers in K *)
  Fixpoint kpow (x : K) (n : nat) : K := match n with O => rI | S n => rmul x (kpow x n) end.
  (** sums in K *)
  Fixpoint ksum (n : nat) (f : nat -> K) : K := match n with O => rO | S n => radd (ksum n f) (f n) end.
  (** the value of a polynomial at a point *)
  Definition evalp (a : R) (x : K) : K := ksum N (fun i => rmul (ofZ (co a i)) (kpow x i)).
  (** slot j of the first (zeta) or the second (its inverse) row *)
  Definition slot (zeta : K) (a : R) (j : nat) : K := evalp a (kpow zeta (5 ^ j)).

  Let PM : ring_morph rO rI radd rmul rsub ropp req 0 1 Z.add Z.mul Z.sub Z.opp Zeq_bool ofZ := gen_phiZ_morph Eqv Ext RT.
  Lemma ofZ_add x y : ofZ (x + y) == radd (ofZ x) (ofZ y). Proof. apply (morph_add PM). Qed.
  Lemma ofZ_mul x y : ofZ (x * y) == rmul (ofZ x) (ofZ y). Proof. apply (morph_mul PM). Qed.
  Lemma ofZ_opp x : ofZ (- x) == ropp (ofZ x). Proof. apply (morph_opp PM). Qed.
  Lemma ofZ_0 : ofZ 0 == rO. Proof. apply (morph0 PM). Qed.
  Lemma ofZ_1 : ofZ 1 == rI. Proof. apply (morph1 PM). Qed.

  Lemma kpow_ext x y n : x == y -> kpow x n == kpow y n.
  Proof. intros E. induction n as [|n IH]; cbn [kpow]; [reflexivity|]. rewrite IH, E. reflexivity. Qed.
  Lemma kpow_add x n m : kpow x (n + m) == rmul (kpow x n) (kpow x m).
  Proof. induction n as [|n IH]; cbn [kpow plus]; [ring|]. rewrite IH. ring. Qed.
  Lemma kpow_mul x n m : kpow x (n * m) == kpow (kpow x n) m.
  Proof. induction m as [|m IH]; [rewrite Nat.mul_0_r; reflexivity|]. rewrite Nat.mul_succ_r, Nat.add_comm, kpow_add, IH. cbn [kpow]. reflexivity. Qed.
  Lemma kpow_1 n : kpow rI n == rI.
  Proof. induction n as [|n IH]; cbn [kpow]; [reflexivity|]. rewrite IH. ring. Qed.
  Lemma kpow_m1 n : kpow (ropp rI) n == ofZ (sgn (Z.of_nat n)).
  Proof.
    induction n as [|n IH]; [cbn [kpow]; symmetry; apply ofZ_1|]. cbn [kpow]. rewrite IH.
    replace (sgn (Z.of_nat (S n))) with (- sgn (Z.of_nat n)); [rewrite ofZ_opp; ring|]. rewrite Nat2Z.inj_succ, <- Z.add_1_r, sgn_succ. reflexivity.
  Qed.
  Lemma kpow_prod x y n : kpow (rmul x y) n == rmul (kpow x n) (kpow y n).
  Proof. induction n as [|n IH]; cbn [kpow]; [ring|]. rewrite IH. ring. Qed.

  Lemma ksum_ext n f g : (forall i, (i < n)%nat -> f i == g i) -> ksum n f == ksum n g.
  Proof. induction n as [|n IH]; intros H; cbn [ksum]; [reflexivity|]. rewrite IH, (H n) by (auto with arith). reflexivity. Qed.
  Lemma ksum_add n f g : ksum n (fun i => radd (f i) (g i)) == radd (ksum n f) (ksum n g).
  Proof. induction n as [|n IH]; cbn [ksum]; [ring|]. rewrite IH. ring. Qed.
  Lemma ksum_mul_l n c f : ksum n (fun i => rmul c (f i)) == rmul c (ksum n f).
  Proof. induction n as [|n IH]; cbn [ksum]; [ring|]. rewrite IH. ring. Qed.
  Lemma ksum_0 n f : (forall i, (i < n)%nat -> f i == rO) -> ksum n f == rO.
  Proof. induction n as [|n IH]; intros H; cbn [ksum]; [reflexivity|]. rewrite IH, (H n) by (auto with arith). ring. Qed.
  Lemma ksum_single n f k : (k < n)%nat -> (forall i, (i < n)%nat -> i <> k -> f i == rO) -> ksum n f == f k.
  Proof.
    induction n as [|n IH]; intros H Z0; [lia|]. cbn [ksum]. destruct (Nat.eq_dec k n) as [->|NE].
    - rewrite (ksum_0 n) by (intros i Hi; apply Z0; lia). ring.
    - rewrite IH by (try lia; intros i Hi; apply Z0; lia). rewrite (Z0 n) by lia. ring.
  Qed.

  Lemma evalp_add a b x : evalp (add a b) x == radd (evalp a x) (evalp b x).
  Proof. unfold evalp. rewrite <- ksum_add. apply ksum_ext. intros i Hi. rewrite co_add, ofZ_add. ring. Qed.
  Lemma evalp_smul c a x : evalp (smul c a) x == rmul (ofZ c) (evalp a x).
  Proof. unfold evalp. rewrite <- ksum_mul_l. apply ksum_ext. intros i Hi. rewrite co_smul, ofZ_mul. ring. Qed.
  Lemma evalp_0 x : evalp R0 x == rO.
  Proof. unfold evalp. apply ksum_0. intros i Hi. rewrite co_R0, ofZ_0. ring. Qed.
  Lemma evalp_ext a x y : x == y -> evalp a x == evalp a y.
  Proof. intros E. unfold evalp. apply ksum_ext. intros i Hi. rewrite (kpow_ext x y i E). reflexivity. Qed.

  (** the value of the monomial X^m *)
  Lemma evalp_mono x m : (0 < N)%nat -> kpow x N == ropp rI -> evalp (mono (Z.of_nat m)) x == kpow x m.
  Proof.
    intros NP XN. unfold evalp. pose proof (Nat.mod_upper_bound m N ltac:(lia)) as MB.
    rewrite (ksum_single N _ (m mod N) MB).
    - unfold mono. rewrite co_mkR by exact MB. rewrite Nat2Z.inj_mod, Z.eqb_refl. rewrite <- Nat2Z.inj_div, <- kpow_m1.
      rewrite (Nat.div_mod m N) at 3 by lia. rewrite kpow_add, kpow_mul. rewrite (kpow_ext _ _ (m / N) XN). reflexivity.
    - intros i Hi NE. unfold mono. rewrite co_mkR by exact Hi. rewrite <- Nat2Z.inj_mod.
      destruct (Z.eqb_spec (Z.of_nat i) (Z.of_nat (m mod N))); [lia|]. rewrite ofZ_0. ring.
  Qed.
  Lemma evalp_Lsum {A} (l : list A) (f : A -> R) x : evalp (Lsum l f) x == fold_right (fun y s => radd (evalp (f y) x) s) rO l.
  Proof. induction l as [|y l IH]; cbn [Lsum fold_right]; [apply evalp_0|]. rewrite evalp_add, IH. reflexivity. Qed.
  Lemma fold_ksum (f : nat -> K) n : fold_right (fun y s => radd (f y) s) rO (seq 0 n) == ksum n f.
  Proof.
    induction n as [|n IH]; [reflexivity|]. rewrite seq_S, fold_right_app. cbn [fold_right plus ksum].
    assert (X : forall l z, fold_right (fun y s => radd (f y) s) z l == radd (fold_right (fun y s => radd (f y) s) rO l) z).
    { induction l as [|y l IHl]; intros z; cbn [fold_right]; [ring|]. rewrite IHl. ring. }
    rewrite X, IH. ring.
  Qed.
  (** substituting X^g, then evaluating at x, is evaluating at x^g *)
  Lemma evalp_galois (a : R) g x : (0 < N)%nat -> kpow x N == ropp rI -> evalp (galois (Z.of_nat g) a) x == evalp a (kpow x g).
  Proof.
    intros NP XN. unfold galois. rewrite evalp_Lsum, fold_ksum. unfold evalp at 2. apply ksum_ext. intros i Hi.
    rewrite evalp_smul. rewrite <- Nat2Z.inj_mul, evalp_mono by assumption. rewrite kpow_mul. reflexivity.
  Qed.

  (** evaluation at a root of X^N + 1 is multiplicative *)
  Lemma ksum_shift n f : ksum (S n) f == radd (f O) (ksum n (fun i => f (S i))).
  Proof. induction n as [|n IH]; [cbn [ksum]; ring|]. change (ksum (S (S n)) f) with (radd (ksum (S n) f) (f (S n))). rewrite IH. cbn [ksum]. ring. Qed.
  Lemma anti_shift (n : nat) (f : Z -> Z) x z : kpow x (S n) == ropp rI -> f (z - 1 + Z.of_nat (S n)) = - f (z - 1) ->
    ksum (S n) (fun k => rmul (ofZ (f (Z.of_nat k + (z - 1)))) (kpow x k)) == rmul x (ksum (S n) (fun k => rmul (ofZ (f (Z.of_nat k + z))) (kpow x k))).
  Proof.
    intros XN EX. rewrite ksum_shift. cbn [ksum]. replace (Z.of_nat 0 + (z - 1)) with (z - 1) by lia. replace (z - 1 + Z.of_nat (S n)) with (Z.of_nat n + z) in EX by lia. rewrite EX, ofZ_opp.
    assert (S1 : ksum n (fun k => rmul (ofZ (f (Z.of_nat (S k) + (z - 1)))) (kpow x (S k))) == rmul x (ksum n (fun k => rmul (ofZ (f (Z.of_nat k + z))) (kpow x k)))).
    { rewrite <- ksum_mul_l. apply ksum_ext. intros k Hk. replace (Z.of_nat (S k) + (z - 1)) with (Z.of_nat k + z) by lia. cbn [kpow]. ring. }
    rewrite S1. cbn [kpow] in *. set (e := ofZ (f (z - 1))). set (F := ksum n _).
    transitivity (radd (rmul x F) (ropp (rmul (rmul x (kpow x n)) e))); [rewrite XN; ring|ring].
  Qed.
  Lemma evalp_shift (b : R) x i : (0 < N)%nat -> kpow x N == ropp rI ->
    ksum N (fun k => rmul (ofZ (ext b (Z.of_nat k + - Z.of_nat i))) (kpow x k)) == rmul (kpow x i) (evalp b x).
  Proof.
    intros NP XN. induction i as [|i IH].
    - cbn [kpow]. transitivity (evalp b x); [|ring]. apply ksum_ext. intros k Hk. replace (Z.of_nat k + - Z.of_nat 0) with (Z.of_nat k) by lia. rewrite ext_co by lia. reflexivity.
    - cbn [kpow]. transitivity (rmul x (rmul (kpow x i) (evalp b x))); [|ring]. rewrite <- IH.
      assert (G : forall M g, M = N -> (forall m, g (m + Z.of_nat N) = - g m) -> ksum M (fun k => rmul (ofZ (g (Z.of_nat k + (- Z.of_nat i - 1)))) (kpow x k)) == rmul x (ksum M (fun k => rmul (ofZ (g (Z.of_nat k + - Z.of_nat i))) (kpow x k)))).
      { intros M g EM HG. destruct M as [|n]; [lia|]. apply anti_shift; [rewrite EM; exact XN|rewrite EM; apply HG]. }
      rewrite <- (G N (ext b) eq_refl (ext_N NP b)). apply ksum_ext. intros k Hk. replace (Z.of_nat k + (- Z.of_nat i - 1)) with (Z.of_nat k + - Z.of_nat (S i)) by lia. reflexivity.
  Qed.
  Lemma ksum_swap n m (f : nat -> nat -> K) : ksum n (fun i => ksum m (f i)) == ksum m (fun j => ksum n (fun i => f i j)).
  Proof.
    induction n as [|n IH]; cbn [ksum]; [symmetry; apply ksum_0; reflexivity|]. rewrite IH. symmetry. rewrite <- ksum_add. reflexivity.
  Qed.
  Lemma ofZ_sum n f : ofZ (sum n f) == ksum n (fun i => ofZ (f i)).
  Proof. induction n as [|n IH]; cbn [sum ksum]; [apply ofZ_0|]. rewrite ofZ_add, IH. reflexivity. Qed.
  Theorem evalp_mul (a b : R) x : (0 < N)%nat -> kpow x N == ropp rI -> evalp (mul a b) x == rmul (evalp a x) (evalp b x).
  Proof.
    intros NP XN. unfold evalp at 1.
    transitivity (ksum N (fun k => ksum N (fun i => rmul (ofZ (co a i)) (rmul (ofZ (ext b (Z.of_nat k + - Z.of_nat i))) (kpow x k))))).
    - apply ksum_ext. intros k Hk. unfold mul. rewrite co_mkR by exact Hk. rewrite ofZ_sum.
      transitivity (rmul (kpow x k) (ksum N (fun i => ofZ (co a i * ext b (Z.of_nat k - Z.of_nat i))))); [ring|]. rewrite <- ksum_mul_l. apply ksum_ext. intros i Hi. rewrite ofZ_mul.
      replace (Z.of_nat k - Z.of_nat i) with (Z.of_nat k + - Z.of_nat i) by lia. ring.
    - rewrite ksum_swap. transitivity (ksum N (fun i => rmul (rmul (ofZ (co a i)) (kpow x i)) (evalp b x))).
      + apply ksum_ext. intros i Hi. rewrite ksum_mul_l, evalp_shift by assumption. ring.
      + transitivity (ksum N (fun i => rmul (evalp b x) (rmul (ofZ (co a i)) (kpow x i)))); [apply ksum_ext; intros; ring|]. rewrite ksum_mul_l. unfold evalp. ring.
  Qed.
  (** exponents count modulo 2N *)
  Lemma kpow_2N x : kpow x N == ropp rI -> kpow x (2 * N) == rI.
  Proof. intros XN. rewrite Nat.mul_comm, kpow_mul. rewrite (kpow_ext _ _ 2 XN). cbn [kpow]. ring. Qed.
  Lemma kpow_mod x e e' : (0 < N)%nat -> kpow x N == ropp rI -> eqz (2 * Z.of_nat N) (Z.of_nat e) (Z.of_nat e') -> kpow x e == kpow x e'.
  Proof.
    intros NP XN E. assert (M : (e mod (2 * N) = e' mod (2 * N))%nat).
    { apply Nat2Z.inj. rewrite !Nat2Z.inj_mod. apply eqz_iff; [lia|]. replace (Z.of_nat (2 * N)) with (2 * Z.of_nat N) by lia. exact E. }
    rewrite (Nat.div_mod e (2 * N)), (Nat.div_mod e' (2 * N)), M by lia. rewrite !kpow_add, !kpow_mul.
    assert (Q : forall c, kpow (kpow x (2 * N)) c == rI) by (intros c; rewrite (kpow_ext _ _ c (kpow_2N x XN)); apply kpow_1).
    rewrite <- !kpow_mul. rewrite !(kpow_mul x (2 * N)), !Q. reflexivity.
  Qed.
  Lemma odd5 j : Nat.odd (5 ^ j) = true.
  Proof. induction j as [|j IH]; [reflexivity|]. rewrite Nat.pow_succ_r', Nat.odd_mul, IH. reflexivity. Qed.
  Lemma root_pow x e : kpow x N == ropp rI -> Nat.odd e = true -> kpow (kpow x e) N == ropp rI.
  Proof.
    intros XN O. rewrite <- kpow_mul, Nat.mul_comm, kpow_mul. rewrite (kpow_ext _ _ e XN), kpow_m1. unfold sgn.
    replace (Z.even (Z.of_nat e)) with false; [rewrite <- ofZ_1; apply (ofZ_opp 1)|].
    apply Nat.odd_spec in O. destruct O as [c ->]. symmetry. rewrite Nat2Z.inj_add, Nat2Z.inj_mul, Z.even_add, Z.even_mul. reflexivity.
  Qed.

  Theorem slot_rotate (a : R) zeta j k : pow2 N -> (2 <= N)%nat -> kpow zeta N == ropp rI ->
    slot zeta (galois (5 ^ Z.of_nat k) a) j == slot zeta a ((j + k) mod (N / 2)).
  Proof.
    intros P2 N2 Z0. unfold slot. replace (5 ^ Z.of_nat k) with (Z.of_nat (5 ^ k)) by (rewrite Nat2Z.inj_pow; reflexivity).
    rewrite evalp_galois; [|lia|apply root_pow; [exact Z0|apply odd5]].
    apply evalp_ext. rewrite <- kpow_mul, <- Nat.pow_add_r. apply kpow_mod; [lia|exact Z0|].
    rewrite !Nat2Z.inj_pow. change (Z.of_nat 5) with 5.
    pose proof (galEl_half N P2 (Z.of_nat (j + k)) (Z.of_nat ((j + k) mod (N / 2))) N2 ltac:(lia) ltac:(lia)) as G.
    rewrite <- !(galEl_eqz N P2) by lia. rewrite G; [reflexivity|]. rewrite Nat2Z.inj_mod. symmetry. apply eqz_mod.
  Qed.
  Theorem slot_conj (a : R) zeta zinv j : (0 < N)%nat -> kpow zeta N == ropp rI -> rmul zeta zinv == rI ->
    slot zeta (galois (-1) a) j == slot zinv a j.
  Proof.
    intros NP Z0 I. unfold slot. assert (E : galois (-1) a = galois (Z.of_nat (2 * N - 1)) a).
    { unfold galois. apply Lsum_ext. intros i Hi. f_equal. unfold mono. apply mkR_ext. intros k Hk.
      replace (Z.of_nat (2 * N - 1) * Z.of_nat i) with (-1 * Z.of_nat i + (2 * Z.of_nat i) * Z.of_nat N) by lia.
      rewrite Z.mod_add by lia. rewrite Z.div_add by lia.
      replace (sgn (-1 * Z.of_nat i / Z.of_nat N + 2 * Z.of_nat i)) with (sgn (-1 * Z.of_nat i / Z.of_nat N)); [reflexivity|].
      unfold sgn. rewrite Z.even_add, Z.even_mul. cbn [Z.even orb]. destruct (Z.even _); reflexivity. }
    rewrite E, evalp_galois; [|exact NP|apply root_pow; [exact Z0|apply odd5]]. apply evalp_ext.
    rewrite <- kpow_mul, Nat.mul_comm, kpow_mul. apply kpow_ext.
    transitivity (rmul (kpow zeta (2 * N - 1)) (rmul zeta zinv)); [rewrite I; ring|].
    transitivity (rmul (kpow zeta (2 * N)) zinv); [|rewrite (kpow_2N zeta Z0); ring].
    replace (2 * N)%nat with (S (2 * N - 1)) at 2 by lia. cbn [kpow]. ring.
  Qed.
End Slots.

(** amounts that agree modulo N/2 give the same automorphism *)
Lemma galois_period N (a : R N) k k' : pow2 N -> (2 <= N)%nat -> 0 <= k -> 0 <= k' -> eqz (Z.of_nat (N / 2)) k k' -> galois (5 ^ k) a = galois (5 ^ k') a.
Proof. intros P2 N2 K K' E. rewrite !(galois_galEl P2) by assumption. rewrite (galEl_half N P2 k k') by assumption. reflexivity. Qed.
