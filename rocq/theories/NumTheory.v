(** Fermat's little theorem, modular inverses by exponentiation, a primality checker, CRT facts. *)
From Verif Require Import Base Negacyclic.
From Coq Require Import Znumtheory Zpow_facts.
Open Scope Z_scope.

(** b^e mod q by repeated squaring (Coq's own Zpow_mod) *)
Definition powm (q b e : Z) : Z := Zpow_mod b e q.
Lemma powm_ok q b e : 0 < q -> powm q b e = (b ^ e) mod q.
Proof. intros H. unfold powm. apply Zpow_mod_correct. lia. Qed.

(** inverse modulo a prime, computed as the code does: x^(q-2) mod q *)
Definition invm (q x : Z) : Z := powm q x (q - 2).

(** ** products over 1..n *)
Fixpoint prodl (l : list Z) : Z := match l with nil => 1 | x :: t => x * prodl t end.

Lemma prodl_perm l1 l2 : Permutation l1 l2 -> prodl l1 = prodl l2.
Proof. induction 1; cbn; lia. Qed.
Lemma prodl_app l1 l2 : prodl (l1 ++ l2) = prodl l1 * prodl l2.
Proof. induction l1; cbn [prodl app]; [lia|]. rewrite IHl1. lia. Qed.

Lemma prodl_map_mul a q l : 0 < q -> (prodl (map (fun x => (a * x) mod q) l)) mod q = (a ^ Z.of_nat (length l) * prodl l) mod q.
Proof.
  intros Hq. induction l as [|x l IH]; [reflexivity|].
  cbn [map prodl length]. rewrite Nat2Z.inj_succ, Z.pow_succ_r by lia.
  rewrite Z.mul_mod, Z.mod_mod, IH, <- Z.mul_mod by lia. f_equal. lia.
Qed.

Lemma prime_not_div_prod q l : prime q -> (forall x, In x l -> ~ (q | x)) -> ~ (q | prodl l).
Proof.
  intros P. induction l as [|x l IH]; intros H D; cbn [prodl] in D.
  - destruct P as [P _]. apply Z.divide_1_r_nonneg in D; lia.
  - apply prime_mult in D; [|assumption]. destruct D as [D|D].
    + apply (H x); [left; reflexivity|assumption].
    + apply IH; [|assumption]. intros y Hy. apply H. right; assumption.
Qed.

Theorem fermat q a : prime q -> ~ (q | a) -> (a ^ (q - 1)) mod q = 1.
Proof.
  intros P Na. pose proof (prime_ge_2 q P) as Q2.
  set (n := Z.to_nat (q - 1)). set (l := map Z.of_nat (seq 1 n)).
  assert (Hl : forall x, In x l <-> 1 <= x < q).
  { intros x. unfold l. rewrite in_map_iff. split.
    - intros (i & <- & Hi). apply in_seq in Hi. unfold n in Hi. lia.
    - intros Hx. exists (Z.to_nat x). split; [lia|]. apply in_seq. unfold n. lia. }
  assert (ND : NoDup l).
  { apply NoDup_map_in; [|apply seq_NoDup]. intros; lia. }
  assert (nd : forall x, In x l -> ~ (q | x)).
  { intros x Hx D. apply Hl in Hx. apply Z.divide_pos_le in D; lia. }
  assert (ND2 : forall x, In x l -> ~ (q | a * x)).
  { intros x Hx D. apply prime_mult in D; [|assumption]. destruct D; [contradiction|]. apply (nd x); assumption. }
  assert (PM : Permutation (map (fun x => (a * x) mod q) l) l).
  { apply NoDup_Permutation_bis.
    - apply NoDup_map_in; [|assumption]. intros x y Hx Hy E.
      apply Hl in Hx, Hy.
      assert (D : (q | a * (x - y))).
      { apply Z.mod_divide; [lia|]. rewrite Z.mul_sub_distr_l, Zminus_mod, E, Z.sub_diag. apply Z.mod_0_l. lia. }
      apply prime_mult in D; [|assumption]. destruct D as [D|D]; [contradiction|].
      destruct D as [c D]. assert (c = 0) by nia. nia.
    - rewrite map_length. reflexivity.
    - intros x Hx. apply in_map_iff in Hx. destruct Hx as (y & <- & Hy). apply Hl.
      pose proof (Z.mod_pos_bound (a * y) q ltac:(lia)).
      assert ((a * y) mod q <> 0); [|lia]. intros E. apply Z.mod_divide in E; [|lia]. apply (ND2 y); assumption. }
  pose proof (prodl_map_mul a q l ltac:(lia)) as E. rewrite (prodl_perm _ _ PM) in E.
  assert (LEN : Z.of_nat (length l) = q - 1).
  { unfold l. rewrite map_length, seq_length. unfold n. lia. }
  rewrite LEN in E.
  assert (D : (q | (a ^ (q - 1) - 1) * prodl l)).
  { apply Z.mod_divide; [lia|]. rewrite Z.mul_sub_distr_r, Z.mul_1_l, Zminus_mod, <- E, Z.sub_diag. apply Z.mod_0_l. lia. }
  apply prime_mult in D; [|assumption]. destruct D as [D|D].
  - destruct D as [c D]. replace (a ^ (q - 1)) with (1 + c * q) by lia. rewrite Z.mod_add by lia. apply Z.mod_small. lia.
  - exfalso. revert D. apply prime_not_div_prod; assumption.
Qed.

Lemma invm_ok q x : prime q -> ~ (q | x) -> (x * invm q x) mod q = 1.
Proof.
  intros P N. pose proof (prime_ge_2 q P). unfold invm. rewrite powm_ok by lia.
  rewrite Z.mul_mod_idemp_r by lia.
  rewrite <- (fermat q x P N). f_equal. replace (q - 1) with (Z.succ (q - 2)) by lia.
  rewrite Z.pow_succ_r by lia. reflexivity.
Qed.

Lemma invm_range q x : 0 < q -> 0 <= invm q x < q.
Proof. intros H. unfold invm. rewrite powm_ok by lia. apply Z.mod_pos_bound. lia. Qed.

(** congruences on integers *)
Definition eqz (q a b : Z) : Prop := (q | a - b).
Lemma eqz_refl q a : eqz q a a.
Proof. exists 0. lia. Qed.
Lemma eqz_sym q a b : eqz q a b -> eqz q b a.
Proof. intros [c H]. exists (- c). lia. Qed.
Lemma eqz_trans q a b c : eqz q a b -> eqz q b c -> eqz q a c.
Proof. intros [x H] [y K]. exists (x + y). lia. Qed.
Lemma eqz_add q a a' b b' : eqz q a a' -> eqz q b b' -> eqz q (a + b) (a' + b').
Proof. intros [x H] [y K]. exists (x + y). lia. Qed.
Lemma eqz_sub q a a' b b' : eqz q a a' -> eqz q b b' -> eqz q (a - b) (a' - b').
Proof. intros [x H] [y K]. exists (x - y). lia. Qed.
Lemma eqz_opp q a a' : eqz q a a' -> eqz q (- a) (- a').
Proof. intros [x H]. exists (- x). lia. Qed.
Lemma eqz_mul q a a' b b' : eqz q a a' -> eqz q b b' -> eqz q (a * b) (a' * b').
Proof. intros [x H] [y K]. exists (x * b + a' * y). replace a with (a' + x * q) by lia. replace b with (b' + y * q) by lia. ring. Qed.
Lemma eqz_mod q a : eqz q (a mod q) a.
Proof.
  destruct (Z.eq_dec q 0) as [->|N]; [rewrite Zmod_0_r; apply eqz_refl|].
  exists (- (a / q)). pose proof (Z.div_mod a q N). lia.
Qed.
Lemma eqz_iff q a b : q <> 0 -> (eqz q a b <-> a mod q = b mod q).
Proof.
  intros N. split.
  - intros [c H]. replace a with (b + c * q) by lia. apply Z.mod_add. assumption.
  - intros H. apply Z.mod_divide; [assumption|]. rewrite Zminus_mod, H, Z.sub_diag. apply Z.mod_0_l. assumption.
Qed.
Lemma eqz_0 q a : eqz q a 0 <-> (q | a).
Proof. unfold eqz. rewrite Z.sub_0_r. reflexivity. Qed.
Lemma eqz_eq q a b : a = b -> eqz q a b.
Proof. intros ->. apply eqz_refl. Qed.
Lemma eqz_sum q n f g : (forall i, (i < n)%nat -> eqz q (f i) (g i)) -> eqz q (sum n f) (sum n g).
Proof.
  induction n as [|n IH]; intros H; cbn; [apply eqz_refl|].
  apply eqz_add; [apply IH; intros; apply H|apply H]; lia.
Qed.
Lemma eqz_pow q a b e : 0 <= e -> eqz q a b -> eqz q (a ^ e) (b ^ e).
Proof.
  intros He H. pattern e. apply natlike_ind; [apply eqz_refl| |assumption].
  intros x Hx IH. rewrite !Z.pow_succ_r by assumption. apply eqz_mul; assumption.
Qed.
Lemma eqz_cancel q k a b : Z.gcd k q = 1 -> eqz q (k * a) (k * b) -> eqz q a b.
Proof.
  unfold eqz. intros G H. rewrite <- Z.mul_sub_distr_l in H. apply Z.gauss in H; [assumption|].
  rewrite Z.gcd_comm. assumption.
Qed.
Lemma prime_gcd q x : prime q -> ~ (q | x) -> Z.gcd x q = 1.
Proof.
  intros P N. rewrite Z.gcd_comm. apply Zgcd_1_rel_prime. apply prime_rel_prime; assumption.
Qed.
Lemma invm_eqz q x : prime q -> ~ (q | x) -> eqz q (x * invm q x) 1.
Proof.
  intros P N. pose proof (prime_ge_2 q P). apply eqz_iff; [lia|]. rewrite invm_ok by assumption.
  symmetry. apply Z.mod_small. lia.
Qed.

(** ** Trial-division primality test, used to exhibit concrete parameters *)
Fixpoint no_div (n : nat) (d q : Z) : bool :=
  match n with
  | O => true
  | S n' => if q mod d =? 0 then false else no_div n' (d + 1) q
  end.
Definition is_prime (q : Z) : bool := (1 <? q) && no_div (Z.to_nat (Z.sqrt q - 1)) 2 q.
Lemma no_div_ok n : forall d q, no_div n d q = true -> forall x, d <= x < d + Z.of_nat n -> q mod x <> 0.
Proof.
  induction n as [|n IH]; intros d q H x Hx; [lia|]. cbn [no_div] in H.
  destruct (q mod d =? 0) eqn:E; [discriminate|]. apply Z.eqb_neq in E.
  destruct (Z.eq_dec x d) as [->|Nx]; [assumption|]. apply (IH (d + 1) q H). lia.
Qed.
Lemma is_prime_ok q : is_prime q = true -> prime q.
Proof.
  unfold is_prime. intros H. apply andb_prop in H. destruct H as [H1 H2]. apply Z.ltb_lt in H1.
  apply prime_alt. split; [assumption|]. intros x Hx [c Hc].
  pose proof (Z.sqrt_spec q ltac:(lia)) as SQ. cbv zeta in SQ.
  assert (C : 1 < c < q) by nia.
  destruct (Z.le_gt_cases x (Z.sqrt q)) as [L|L].
  - apply (no_div_ok _ _ _ H2 x); [lia|]. rewrite Hc. apply Z.mod_mul. lia.
  - assert (c <= Z.sqrt q) by nia. apply (no_div_ok _ _ _ H2 c); [lia|]. rewrite Hc, Z.mul_comm. apply Z.mod_mul. lia.
Qed.

(** ** Chinese remaindering: a common multiple of pairwise coprime moduli *)
Lemma coprime_prod q l : (forall x, In x l -> Z.gcd q x = 1) -> Z.gcd q (prodl l) = 1.
Proof.
  induction l as [|x l IH]; intros H; cbn [prodl]; [apply Z.gcd_1_r|].
  apply Zgcd_1_rel_prime. apply rel_prime_mult; apply Zgcd_1_rel_prime.
  - apply H. left; reflexivity.
  - apply IH. intros; apply H; right; assumption.
Qed.
Lemma divide_prodl l a : NoDup l -> (forall x, In x l -> prime x) -> (forall x, In x l -> (x | a)) -> (prodl l | a).
Proof.
  induction l as [|x l IH]; intros ND Pr D; cbn [prodl]; [apply Z.divide_1_l|].
  inversion ND as [|? ? Nx NDl]; subst.
  assert (G : Z.gcd x (prodl l) = 1).
  { apply coprime_prod. intros y Hy. apply Zgcd_1_rel_prime.
    apply prime_rel_prime; [apply Pr; left; reflexivity|].
    intros Dv. apply prime_div_prime in Dv; [|apply Pr; left; reflexivity|apply Pr; right; assumption]. congruence. }
  destruct (D x ltac:(left; reflexivity)) as [c Hc].
  assert (D2 : (prodl l | a)) by (apply IH; trivial; intros; [apply Pr|apply D]; right; assumption).
  rewrite Hc in D2. rewrite Z.mul_comm in D2. apply Z.gauss in D2; [|rewrite Z.gcd_comm; assumption].
  destruct D2 as [d Hd]. exists d. rewrite Hc, Hd. lia.
Qed.
Lemma in_divide_prodl l x : In x l -> (x | prodl l).
Proof.
  induction l as [|y l IH]; intros H; [destruct H|]. cbn [prodl]. destruct H as [->|H].
  - exists (prodl l). lia.
  - apply Z.divide_mul_r. apply IH; assumption.
Qed.
Lemma prodl_pos l : (forall x, In x l -> 0 < x) -> 0 < prodl l.
Proof.
  induction l as [|x l IH]; intros H; cbn [prodl]; [lia|]. apply Z.mul_pos_pos.
  - apply H; left; reflexivity.
  - apply IH; intros; apply H; right; assumption.
Qed.
Lemma prime_divide_prodl q l : prime q -> (forall x, In x l -> prime x) -> ~ In q l -> ~ (q | prodl l).
Proof.
  intros P Pr N. apply prime_not_div_prod; [assumption|]. intros x Hx D.
  apply prime_div_prime in D; [congruence|assumption|apply Pr; assumption].
Qed.
