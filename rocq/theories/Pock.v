(** Primality certificates (Pocklington) for the moduli of the parameter sets in the repository. Specification-side number theory; models no code. *)
From Verif Require Import Base NumTheory.
From Coq Require Import Znumtheory Zpow_facts.
Open Scope Z_scope.

Lemma rel_prime_Zpower_l i p q : 0 <= i -> rel_prime p q -> rel_prime (p ^ i) q.
Proof. intros H R. apply rel_prime_sym. apply rel_prime_Zpower_r; [exact H|]. apply rel_prime_sym. exact R. Qed.

Lemma prime_divisor n : 1 < n -> exists r, prime r /\ (r | n).
Proof.
  intros H. assert (P : 0 <= n) by lia. revert H. pattern n. apply Z_lt_induction; [|exact P]. clear n P. intros n IH H.
  destruct (prime_dec n) as [P|P]; [exists n; split; [exact P|apply Z.divide_refl]|].
  destruct (not_prime_divide n H P) as (m & Hm & D). destruct (IH m ltac:(lia) ltac:(lia)) as (r & R1 & R2). exists r. split; [exact R1|]. eapply Z.divide_trans; eassumption.
Qed.

Lemma pow_gcd r x b : 0 <= b -> forall a, 0 <= a -> eqz r (x ^ a) 1 -> eqz r (x ^ b) 1 -> eqz r (x ^ Z.gcd a b) 1.
Proof.
  intros HB. pattern b. apply Zlt_0_ind; [|exact HB]. clear b HB. intros b IH HB a HA EA EB.
  destruct (Z.eq_dec b 0) as [->|NB]; [rewrite Z.gcd_0_r, Z.abs_eq by lia; exact EA|].
  pose proof (Z.mod_pos_bound a b ltac:(lia)) as MB. rewrite Z.gcd_comm, <- Z.gcd_mod by exact NB. rewrite Z.gcd_comm. apply IH; [exact MB|lia|exact EB|].
  pose proof (Z.div_mod a b NB) as DM. assert (QP : 0 <= a / b) by (apply Z.div_pos; lia).
  rewrite DM, Z.pow_add_r, Z.pow_mul_r in EA by (try lia; apply Z.mul_nonneg_nonneg; lia).
  assert (X : eqz r ((x ^ b) ^ (a / b)) 1). { eapply eqz_trans; [apply eqz_pow; [exact QP|exact EB]|]. rewrite Z.pow_1_l by lia. apply eqz_refl. }
  eapply eqz_trans; [|exact EA]. apply eqz_sym. eapply eqz_trans; [apply eqz_mul; [exact X|apply eqz_refl]|]. rewrite Z.mul_1_l. apply eqz_refl.
Qed.

Lemma div_prime_power p e g : prime p -> 0 < e -> 0 <= g -> (g | p ^ e) -> ~ (p ^ e | g) -> (g | p ^ (e - 1)).
Proof.
  intros PP He Hg [h Hh] ND. pose proof (prime_ge_2 _ PP) as P2. pose proof (Z.pow_pos_nonneg p e ltac:(lia) ltac:(lia)) as PE.
  assert (H1 : 1 < h). { destruct (Z.le_gt_cases h 1) as [L|L]; [|exact L]. exfalso. assert (h = 1) by nia. apply ND. exists 1. lia. }
  assert (PH : (p | h)).
  { destruct (Zdivide_dec p h) as [D|D]; [exact D|]. exfalso. assert (RP : rel_prime h (p ^ e)).
    { apply rel_prime_sym. apply rel_prime_Zpower_l; [lia|]. apply prime_rel_prime; assumption. }
    destruct (rel_prime_bezout _ _ RP) as [u v E]. assert (h | 1) by (rewrite <- E; exists (u + v * g); rewrite Hh; ring). apply Z.divide_1_r_nonneg in H; lia. }
  destruct PH as [k Hk]. exists k. replace e with (e - 1 + 1) in Hh by lia. rewrite Z.pow_add_r, Z.pow_1_r in Hh by lia. apply (Z.mul_cancel_r _ _ p); [lia|]. rewrite Hh, Hk. ring.
Qed.

(** one prime power of q - 1 with its witness *)
Record wit := Wit { wp : Z; we : Z; wa : Z }.
Definition wit_ok (q : Z) (c : wit) : bool :=
  (0 <? we c) && ((q - 1) mod wp c ^ we c =? 0) && (powm q (wa c) (q - 1) =? 1) && (Z.gcd (powm q (wa c) ((q - 1) / wp c) - 1) q =? 1).
Lemma wit_div q r c : 1 < q -> prime (wp c) -> wit_ok q c = true -> prime r -> (r | q) -> (wp c ^ we c | r - 1).
Proof.
  intros HQ PP H PR DR. unfold wit_ok in H. apply andb_prop in H. destruct H as [H H4]. apply andb_prop in H. destruct H as [H H3]. apply andb_prop in H. destruct H as [H1 H2].
  apply Z.ltb_lt in H1. apply Z.eqb_eq in H2, H3, H4. destruct c as [p e a]. cbn [wp we wa] in *. pose proof (prime_ge_2 _ PP) as P2. pose proof (prime_ge_2 _ PR) as R2.
  pose proof (Z.pow_pos_nonneg p e ltac:(lia) ltac:(lia)) as PE. apply Z.mod_divide in H2; [|lia]. destruct H2 as [k Hk].
  rewrite powm_ok in H3, H4 by lia. assert (KP : 0 < k) by nia.
  assert (E1 : eqz q (a ^ (q - 1)) 1). { apply eqz_iff; [lia|]. rewrite H3. symmetry. apply Z.mod_small. lia. }
  assert (E1' : eqz r (a ^ (q - 1)) 1) by (unfold eqz in *; eapply Z.divide_trans; eassumption).
  set (x := a ^ k). assert (X1 : eqz r (x ^ (p ^ e)) 1). { unfold x. rewrite <- Z.pow_mul_r, <- Hk by lia. exact E1'. }
  assert (QD : (q - 1) / p = k * p ^ (e - 1)). { rewrite Hk. replace e with (e - 1 + 1) at 1 by lia. rewrite Z.pow_add_r, Z.pow_1_r by lia. rewrite Z.mul_assoc. apply Z.div_mul. lia. }
  assert (X2 : ~ eqz r (x ^ (p ^ (e - 1))) 1).
  { intros C. unfold x in C. pose proof (Z.pow_pos_nonneg p (e - 1) ltac:(lia) ltac:(lia)). rewrite <- Z.pow_mul_r, <- QD in C by lia.
    assert (D : (r | a ^ ((q - 1) / p) mod q - 1)).
    { unfold eqz in C. replace (a ^ ((q - 1) / p) mod q - 1) with ((a ^ ((q - 1) / p) - 1) - q * (a ^ ((q - 1) / p) / q)). { apply Z.divide_sub_r; [exact C|]. apply Z.divide_mul_l. exact DR. }
      pose proof (Z.div_mod (a ^ ((q - 1) / p)) q ltac:(lia)). lia. }
    pose proof (Z.gcd_greatest _ _ _ D DR) as G. rewrite H4 in G. apply Z.divide_1_r_nonneg in G; lia. }
  assert (NR : ~ (r | x)).
  { intros D. apply X2. exfalso. assert (D1 : (r | x ^ (p ^ e))). { replace (p ^ e) with (1 + (p ^ e - 1)) by lia. rewrite Z.pow_add_r, Z.pow_1_r by lia. apply Z.divide_mul_l. exact D. }
    unfold eqz in X1. pose proof (Z.divide_sub_r _ _ _ D1 X1) as D2. replace (x ^ p ^ e - (x ^ p ^ e - 1)) with 1 in D2 by ring. apply Z.divide_1_r_nonneg in D2; lia. }
  assert (X3 : eqz r (x ^ (r - 1)) 1). { apply eqz_iff; [lia|]. rewrite (fermat r x PR NR). symmetry. apply Z.mod_small. lia. }
  pose proof (pow_gcd r x (r - 1) ltac:(lia) (p ^ e) ltac:(lia) X1 X3) as XG. set (g := Z.gcd (p ^ e) (r - 1)) in *.
  destruct (Zdivide_dec (p ^ e) g) as [D|D]; [eapply Z.divide_trans; [exact D|]; apply Z.gcd_divide_r|]. exfalso. apply X2.
  assert (G0 : 0 <= g) by apply Z.gcd_nonneg. destruct (div_prime_power p e g PP H1 G0 (Z.gcd_divide_l _ _) D) as [h Hh].
  pose proof (Z.pow_pos_nonneg p (e - 1) ltac:(lia) ltac:(lia)) as PE1. assert (HP : 0 <= h) by (clear - G0 PE1 Hh; rewrite Hh in PE1; nia). rewrite Hh, Z.mul_comm, Z.pow_mul_r by assumption. eapply eqz_trans; [apply eqz_pow; [exact HP|exact XG]|]. rewrite Z.pow_1_l by exact HP. apply eqz_refl.
Qed.

Fixpoint wprod (l : list wit) : Z := match l with nil => 1 | c :: t => wp c ^ we c * wprod t end.
Fixpoint wfresh (l : list wit) : bool := match l with nil => true | c :: t => forallb (fun d => negb (wp c =? wp d)) t && wfresh t end.
Definition cert_ok (q : Z) (l : list wit) : bool := (1 <? q) && wfresh l && forallb (wit_ok q) l && (q <? (wprod l + 1) * (wprod l + 1)).
Lemma wprod_div q r l : 1 < q -> Forall (fun c => prime (wp c)) l -> wfresh l = true -> forallb (wit_ok q) l = true -> prime r -> (r | q) -> (wprod l | r - 1).
Proof.
  intros HQ. induction l as [|c l IH]; intros F W H PR DR; [apply Z.divide_1_l|]. cbn [wprod wfresh forallb] in *. inversion F; subst. apply andb_prop in W. destruct W as [W1 W2]. apply andb_prop in H. destruct H as [H0 H].
  pose proof (wit_div q r c HQ H2 H0 PR DR) as D1. specialize (IH H3 W2 H PR DR).
  assert (RP : rel_prime (wp c ^ we c) (wprod l)).
  { assert (E0 : 0 < we c) by (unfold wit_ok in H0; do 3 (apply andb_prop in H0; destruct H0 as [H0 _]); apply Z.ltb_lt; exact H0). apply rel_prime_Zpower_l; [lia|]. clear - W1 H2 H3 H. induction l as [|d l IH]; [apply rel_prime_1 || (apply rel_prime_sym; apply rel_prime_1)|].
    cbn [wprod forallb] in *. inversion H3; subst. apply andb_prop in W1. destruct W1 as [W0 W1]. apply andb_prop in H. destruct H as [H0 H].
    apply rel_prime_mult; [|apply IH; trivial].
    assert (E0 : 0 < we d) by (unfold wit_ok in H0; do 3 (apply andb_prop in H0; destruct H0 as [H0 _]); apply Z.ltb_lt; exact H0).
    apply rel_prime_sym. apply rel_prime_Zpower_l; [lia|]. apply rel_prime_sym. apply prime_rel_prime; [exact H2|]. intros D. apply prime_div_prime in D; trivial. apply negb_true_iff, Z.eqb_neq in W0. contradiction. }
  destruct D1 as [u Hu], IH as [v Hv]. assert (D : (wp c ^ we c | wprod l * v)) by (exists u; lia). pose proof (Gauss _ _ _ D RP) as [z Hz]. exists z. rewrite Hv, Hz. ring.
Qed.
Theorem pocklington q l : Forall (fun c => prime (wp c)) l -> cert_ok q l = true -> prime q.
Proof.
  intros F H. unfold cert_ok in H. apply andb_prop in H. destruct H as [H H4]. apply andb_prop in H. destruct H as [H H3]. apply andb_prop in H. destruct H as [H1 H2]. apply Z.ltb_lt in H1, H4.
  destruct (prime_dec q) as [P|NP]; [exact P|exfalso]. destruct (not_prime_divide q H1 NP) as (n & Hn & [m Hm]).
  assert (X : exists d, 1 < d /\ (d | q) /\ d * d <= q). { destruct (Z.le_gt_cases n m); [exists n|exists m]; (split; [nia|split; [|nia]]); [exists m|exists n]; lia. }
  destruct X as (d & D1 & D2 & D3). destruct (prime_divisor d D1) as (r & PR & DR). assert (RQ : (r | q)) by (eapply Z.divide_trans; eassumption).
  pose proof (wprod_div q r l H1 F H2 H3 PR RQ) as WD. pose proof (prime_ge_2 _ PR) as R2. apply Z.divide_pos_le in DR; [|lia]. apply Z.divide_pos_le in WD; [|lia].
  assert (0 <= wprod l). { clear - F. induction l as [|c l IH]; cbn [wprod]; [lia|]. inversion F; subst. apply Z.mul_nonneg_nonneg; [apply Z.pow_nonneg; pose proof (prime_ge_2 _ H1); lia|apply IH; assumption]. }
  nia.
Qed.
