(** Primitive roots: for a prime q = 1 mod 2N, N a power of two, some r has r^N = -1 modulo q (what ring.NewRing searches for). *)
From Verif Require Import Base NumTheory.
From Coq Require Import Znumtheory.
Open Scope Z_scope.

Fixpoint pev (l : list Z) (x : Z) : Z := match l with nil => 0 | a :: l => a + x * pev l x end.
Fixpoint padd (a b : list Z) : list Z := match a, b with nil, b => b | a, nil => a | x :: a, y :: b => (x + y) :: padd a b end.
Lemma padd_ev a : forall b x, pev (padd a b) x = pev a x + pev b x.
Proof. induction a as [|u a IH]; intros [|v b] x; cbn [padd pev]; try lia. rewrite IH. ring. Qed.
Lemma pscal_ev r a x : pev (map (Z.mul r) a) x = r * pev a x.
Proof. induction a as [|u a IH]; cbn [map pev]; [lia|]. rewrite IH. ring. Qed.
Lemma padd_last a : forall b, (length b < length a)%nat -> length (padd a b) = length a /\ last (padd a b) 0 = last a 0.
Proof.
  induction a as [|u a IH]; intros b H; [cbn in H; lia|]. destruct b as [|v b]; [split; reflexivity|]. cbn [length] in H. destruct (IH b ltac:(lia)) as [L E]. cbn [padd length]. split; [lia|].
  destruct a as [|u' a]; [cbn in H; lia|]. destruct b as [|v' b]; [reflexivity|]. cbn [padd] in *. cbn [last] in *. exact E.
Qed.
(** f(x) - f(r) = (x - r) g(x), g one shorter with the same leading coefficient *)
Lemma division r l : l <> nil -> exists g, length g = (length l - 1)%nat /\ ((2 <= length l)%nat -> last g 0 = last l 0) /\ forall x, pev l x - pev l r = (x - r) * pev g x.
Proof.
  induction l as [|a l IH]; [congruence|]. intros _. destruct l as [|b l].
  - exists nil. split; [reflexivity|]. split; [cbn; lia|]. intros x. cbn. ring.
  - destruct IH as (g & LG & EG & DG); [discriminate|]. exists (padd (b :: l) (map (Z.mul r) g)).
    destruct (padd_last (b :: l) (map (Z.mul r) g)) as [L E]; [rewrite map_length, LG; cbn; lia|]. split; [rewrite L; cbn; lia|]. split; [intros _; exact E|].
    intros x. rewrite padd_ev, pscal_ev. specialize (DG x). cbn [pev] in *. set (u := b + x * pev l x) in *. set (v := b + r * pev l r) in *. replace (a + x * u - (a + r * v)) with ((x - r) * u + r * (u - v)) by ring. rewrite DG. ring.
Qed.
(** Lagrange: at most degree many roots *)
Lemma lagrange q : prime q -> forall n l roots, length l = S n -> ~ (q | last l 0) -> (forall i j, (i < length roots)%nat -> (j < length roots)%nat -> i <> j -> ~ (q | nth i roots 0 - nth j roots 0)) ->
  (forall x, In x roots -> (q | pev l x)) -> (length roots <= n)%nat.
Proof.
  intros PQ. induction n as [|n IH]; intros l roots LL NL ND HR.
  - destruct l as [|a [|? ?]]; cbn in LL; try lia. destruct roots as [|r roots]; [cbn; lia|]. exfalso. apply NL. specialize (HR r (or_introl eq_refl)). cbn in HR |- *. replace (a + r * 0) with a in HR by ring. exact HR.
  - destruct roots as [|r roots]; [cbn; lia|]. destruct (division r l) as (g & LG & EG & DG); [intros ->; discriminate LL|]. cbn [length]. apply le_n_S. apply (IH g roots).
    + lia.
    + rewrite EG by lia. exact NL.
    + intros i j Hi Hj NE. apply (ND (S i) (S j)); cbn [length]; lia.
    + intros x Hx. assert (D : (q | (x - r) * pev g x)). { rewrite <- DG. apply Z.divide_sub_r; [apply HR; right; exact Hx|apply HR; left; reflexivity]. }
      apply prime_mult in D; [|exact PQ]. destruct D as [D|D]; [|exact D]. exfalso. destruct (In_nth roots x 0 Hx) as (i & Hi & Ei). apply (ND (S i) 0%nat); cbn [length nth]; try lia. rewrite Ei. exact D.
Qed.
Lemma pev_zeros n x c : pev (repeat 0 n ++ [c]) x = c * x ^ Z.of_nat n.
Proof. induction n as [|n IH]; [cbn; ring|]. cbn [repeat app pev]. rewrite IH, Nat2Z.inj_succ, Z.pow_succ_r by lia. ring. Qed.
Lemma nonresidue q : prime q -> 2 < q -> exists x, 1 <= x < q /\ eqz q (x ^ ((q - 1) / 2)) (-1).
Proof.
  intros PQ Q2. set (m := Z.to_nat ((q - 1) / 2)).
  assert (OD : 2 * ((q - 1) / 2) = q - 1).
  { pose proof (Z.div_mod (q - 1) 2 ltac:(lia)). pose proof (Z.mod_pos_bound (q - 1) 2 ltac:(lia)). assert ((q - 1) mod 2 <> 1); [|lia]. intros E. assert (D : (2 | q)) by (exists ((q - 1) / 2 + 1); lia).
    destruct (prime_divisors q PQ 2 D) as [X|[X|[X|X]]]; lia. }
  assert (EM : Z.of_nat m = (q - 1) / 2) by (unfold m; rewrite Z2Nat.id; lia). assert (M0 : (0 < m)%nat) by lia.
  set (rs := map Z.of_nat (seq 1 (Z.to_nat (q - 1)))).
  assert (LR : length rs = Z.to_nat (q - 1)) by (unfold rs; rewrite map_length, seq_length; reflexivity).
  assert (NR : forall i, (i < length rs)%nat -> nth i rs 0 = Z.of_nat (S i)). { intros i Hi. unfold rs. rewrite LR in Hi. rewrite (nth_indep _ 0 (Z.of_nat 0)) by (rewrite map_length, seq_length; exact Hi). rewrite map_nth, seq_nth by exact Hi. f_equal. }
  destruct (Forall_Exists_dec (fun x => x ^ ((q - 1) / 2) mod q = 1) (fun x => Z.eq_dec _ _) rs) as [F|E].
  - exfalso. assert (X : (length rs <= m)%nat); [|rewrite LR in X; lia].
    apply (lagrange q PQ m ((-1) :: repeat 0 (m - 1) ++ [1]) rs).
    + cbn [length]. rewrite app_length, repeat_length. cbn. lia.
    + rewrite (last_last ((-1) :: repeat 0 (m - 1)) 1 0 : last ((-1) :: repeat 0 (m - 1) ++ [1]) 0 = 1). intros D. apply Z.divide_1_r_nonneg in D; lia.
    + intros i j Hi Hj NE D. rewrite !NR in D by assumption. rewrite LR in Hi, Hj. destruct D as [c D]. assert (c = 0) by nia. lia.
    + intros x Hx. cbn [pev]. rewrite pev_zeros. rewrite Forall_forall in F. specialize (F x Hx). replace (-1 + x * (1 * x ^ Z.of_nat (m - 1))) with (x ^ ((q - 1) / 2) - 1).
      * apply Z.mod_divide; [lia|]. rewrite Zminus_mod, F, Z.mod_1_l by lia. reflexivity.
      * rewrite <- EM. replace (Z.of_nat m) with (Z.succ (Z.of_nat (m - 1))) by lia. rewrite Z.pow_succ_r by lia. ring.
  - apply Exists_exists in E. destruct E as (x & Hx & NX). exists x. assert (RX : 1 <= x < q) by (unfold rs in Hx; apply in_map_iff in Hx; destruct Hx as (k & <- & Hk); apply in_seq in Hk; lia). split; [exact RX|].
    assert (NQ : ~ (q | x)) by (intros D; apply Z.divide_pos_le in D; lia). pose proof (fermat q x PQ NQ) as FM. rewrite <- OD in FM. replace (2 * ((q - 1) / 2)) with ((q - 1) / 2 + (q - 1) / 2) in FM by ring. rewrite Z.pow_add_r in FM by lia. set (y := x ^ ((q - 1) / 2)) in *.
    assert (D : (q | (y - 1) * (y + 1))). { replace ((y - 1) * (y + 1)) with (y * y - 1) by ring. apply Z.mod_divide; [lia|]. rewrite Zminus_mod, FM, Z.mod_1_l by lia. reflexivity. }
    apply prime_mult in D; [|exact PQ]. destruct D as [D|D].
    + exfalso. apply NX. apply Z.mod_divide in D; [|lia]. replace y with ((y - 1) + 1) by ring. rewrite Zplus_mod, D, Z.mod_1_l, Z.add_0_l, Z.mod_1_l by lia. reflexivity.
    + unfold eqz. replace (y - -1) with (y + 1) by ring. exact D.
Qed.
Lemma primitive_root q n : prime q -> 2 < q -> 0 < n -> q mod (2 * n) = 1 -> exists r, 0 <= r < q /\ eqz q (r ^ n) (-1).
Proof.
  intros PQ Q2 HN HM. destruct (nonresidue q PQ Q2) as (x & Hx & EX). pose proof (Z.div_mod q (2 * n) ltac:(lia)) as DM. rewrite HM in DM. set (k := q / (2 * n)) in *. assert (K : 0 <= k) by (apply Z.div_pos; lia).
  exists (x ^ k mod q). split; [apply Z.mod_pos_bound; lia|]. eapply eqz_trans; [apply eqz_pow; [lia|apply eqz_mod]|]. rewrite <- Z.pow_mul_r by lia.
  replace (k * n) with ((q - 1) / 2); [exact EX|]. replace (q - 1) with (k * n * 2) by nia. apply Z.div_mul. lia.
Qed.
