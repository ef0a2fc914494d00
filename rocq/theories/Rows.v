(** Residue rows: one row is the vector of N residues of a polynomial modulo one modulus
    (ring.Poly.Coeffs[i] in lattigo), in the coefficient or in the NTT domain.
    The row operations are lattigo's ring methods (a dependency), element by element with the real word routines. *)
From Verif Require Import Base NumTheory Negacyclic Ntt Word BasisExt BasisExtProofs.
From Coq Require Import Znumtheory Setoid Morphisms.
Open Scope Z_scope.

Definition tab {A} (n : nat) (f : nat -> A) : list A := map f (seq 0 n).
Lemma tab_length {A} n (f : nat -> A) : length (tab n f) = n.
Proof. unfold tab. rewrite map_length, seq_length. reflexivity. Qed.
Lemma nth_tab {A} n (f : nat -> A) i d : (i < n)%nat -> nth i (tab n f) d = f i.
Proof. intros H. unfold tab. rewrite (nth_map' _ _ _ O) by (rewrite seq_length; assumption). rewrite seq_nth by assumption. reflexivity. Qed.
Lemma tab_ext {A} n (f g : nat -> A) : (forall i, (i < n)%nat -> f i = g i) -> tab n f = tab n g.
Proof. intros H. unfold tab. apply map_ext_in. intros i Hi. apply in_seq in Hi. apply H. lia. Qed.
Lemma tab_nth {A} (l : list A) d : tab (length l) (fun i => nth i l d) = l.
Proof.
  apply (nth_ext _ _ d d); [apply tab_length|]. intros i Hi. rewrite tab_length in Hi.
  rewrite (nth_tab _ (fun i => nth i l d)) by assumption. reflexivity.
Qed.
Lemma list_tab {A} (l : list A) n d : length l = n -> l = tab n (fun i => nth i l d).
Proof. intros <-. symmetry. apply tab_nth. Qed.

(** ** finite sums in the polynomial ring, indexed by a list *)
Section Lsum.
  Context {N : nat} {A : Type}.
  Notation R := (R N).
  Add Ring R_ring1 : (@R_ring_theory N).
  Fixpoint Lsum (l : list A) (f : A -> R) : R := match l with nil => R0 | x :: t => add (f x) (Lsum t f) end.

  Lemma Lsum_ext l f g : (forall x, In x l -> f x = g x) -> Lsum l f = Lsum l g.
  Proof.
    induction l as [|x l IH]; intros H; cbn; [reflexivity|].
    rewrite (H x), IH by (try (left; reflexivity); intros; apply H; right; assumption). reflexivity.
  Qed.
  Lemma Lsum_eqm q l f g : (forall x, In x l -> eqm q (f x) (g x)) -> eqm q (Lsum l f) (Lsum l g).
  Proof.
    induction l as [|x l IH]; intros H; cbn; [reflexivity|].
    rewrite (H x ltac:(left; reflexivity)), IH by (intros; apply H; right; assumption). reflexivity.
  Qed.
  Lemma Lsum_add l f g : Lsum l (fun x => add (f x) (g x)) = add (Lsum l f) (Lsum l g).
  Proof. induction l as [|x l IH]; cbn; [ring|]. rewrite IH. ring. Qed.
  Lemma Lsum_sub l f g : Lsum l (fun x => sub (f x) (g x)) = sub (Lsum l f) (Lsum l g).
  Proof. induction l as [|x l IH]; cbn; [ring|]. rewrite IH. ring. Qed.
  Lemma Lsum_opp l f : Lsum l (fun x => opp (f x)) = opp (Lsum l f).
  Proof. induction l as [|x l IH]; cbn; [ring|]. rewrite IH. ring. Qed.
  Lemma Lsum_mul_l l c f : Lsum l (fun x => mul c (f x)) = mul c (Lsum l f).
  Proof. induction l as [|x l IH]; cbn; [ring|]. rewrite IH. ring. Qed.
  Lemma Lsum_mul_r l c f : Lsum l (fun x => mul (f x) c) = mul (Lsum l f) c.
  Proof. induction l as [|x l IH]; cbn; [ring|]. rewrite IH. ring. Qed.
  Lemma Lsum_smul l z f : Lsum l (fun x => smul z (f x)) = smul z (Lsum l f).
  Proof. rewrite smul_cst, <- Lsum_mul_l. apply Lsum_ext. intros. apply smul_cst. Qed.
  Lemma Lsum_0 l : Lsum l (fun _ => R0) = R0.
  Proof. induction l as [|x l IH]; cbn; [ring|]. rewrite IH. ring. Qed.
  Lemma Lsum_zero l f : (forall x, In x l -> f x = R0) -> Lsum l f = R0.
  Proof. intros H. rewrite (Lsum_ext l f (fun _ => R0) H). apply Lsum_0. Qed.
  Lemma Lsum_app l l' f : Lsum (l ++ l') f = add (Lsum l f) (Lsum l' f).
  Proof. induction l as [|x l IH]; cbn; [ring|]. rewrite IH. ring. Qed.
  Lemma Lsum_perm l l' f : Permutation l l' -> Lsum l f = Lsum l' f.
  Proof. induction 1; cbn; try congruence; ring. Qed.
  Lemma Lsum_single (l : list A) f k : NoDup l -> In k l -> (forall x, In x l -> x <> k -> f x = R0) -> Lsum l f = f k.
  Proof.
    induction l as [|x l IH]; intros ND I H; [destruct I|]. inversion ND; subst. cbn. destruct I as [->|I].
    - rewrite Lsum_zero; [ring|]. intros y Hy. apply H; [right; assumption|]. intros ->. contradiction.
    - rewrite (H x); [|left; reflexivity|intros ->; contradiction]. rewrite IH; trivial; [ring|].
      intros y Hy Ny. apply H; [right; assumption|assumption].
  Qed.
  Lemma Lsum_bnd l f B : (forall x, In x l -> bnd (f x) B) -> bnd (Lsum l f) (Z.of_nat (length l) * B).
  Proof.
    induction l as [|x l IH]; intros H.
    - cbn [Lsum length]. intros i Hi. rewrite co_R0. cbn. lia.
    - cbn [Lsum length]. replace (Z.of_nat (S (length l)) * B) with (B + Z.of_nat (length l) * B) by lia.
      apply bnd_add; [apply H; left; reflexivity|apply IH; intros; apply H; right; assumption].
  Qed.
  Lemma Lsum_aut h l f : aut h (Lsum l f) = Lsum l (fun x => aut h (f x)).
  Proof.
    induction l as [|x l IH]; cbn; [|rewrite aut_add, IH; reflexivity].
    apply R_ext. intros i Hi. unfold aut at 1. rewrite co_mkR by assumption. unfold ext. rewrite !co_R0. ring.
  Qed.
End Lsum.
Lemma Lsum_swap {N A B} (l : list A) (l' : list B) (f : A -> B -> R N) :
  Lsum l (fun x => Lsum l' (fun y => f x y)) = Lsum l' (fun y => Lsum l (fun x => f x y)).
Proof.
  induction l as [|x l IH]; cbn; [rewrite Lsum_0; reflexivity|]. rewrite IH, <- Lsum_add. reflexivity.
Qed.
Lemma Lsum_map {N A B} (g : A -> B) l (f : B -> R N) : Lsum (map g l) f = Lsum l (fun x => f (g x)).
Proof. induction l as [|x l IH]; cbn; [reflexivity|]. rewrite IH. reflexivity. Qed.

Section Rows.
  Context {N : nat}.
  Notation R := (R N).
  Add Ring R_ring2 : (@R_ring_theory N).

  Definition row (p : list R) (j : nat) : R := nth j p R0.

  Implicit Types (m : modulus) (a b c : R).

  (** ring.Add / Sub / Neg / MulCoeffsMontgomery(AndAdd/AndSub) / MForm / InvMForm on one row *)
  Definition r_add m a b : R := mkR (fun i => cred (w64 (co a i + co b i)) (mq m)).
  Definition r_sub m a b : R := mkR (fun i => cred (w64 (co a i + mq m - co b i)) (mq m)).
  Definition r_neg m a : R := mkR (fun i => w64 (mq m - co a i)).
  Definition r_mont m a b : R := mkR (fun i => mred (co a i) (co b i) (mq m) (mred_params (mq m))).
  Definition r_mont_add m a b c : R := r_add m c (r_mont m a b).
  Definition r_mont_sub m a b c : R := mkR (fun i => cred (w64 (co c i + (mq m - co (r_mont m a b) i))) (mq m)).
  Definition r_mform m a : R := mkR (fun i => mform (co a i) (mq m) (bred_params (mq m))).
  Definition r_invmform m a : R := mkR (fun i => mred (co a i) 1 (mq m) (mred_params (mq m))).
  (** ring.Reduce: BRedAdd *)
  Definition r_reduce m a : R := mkR (fun i => co a i mod mq m).

  (** a row of residues in [0, q]: what every routine accepts (NegLvl and Rotate produce q for 0) *)
  Definition inr m a : Prop := forall i, (i < N)%nat -> 0 <= co a i <= mq m.
  Definition canon m a : Prop := forall i, (i < N)%nat -> 0 <= co a i < mq m.
  Definition wrd a : Prop := forall i, (i < N)%nat -> 0 <= co a i < W.
  Definition okmod m : Prop := okm (N := N) m /\ okq (mq m).

  Lemma canon_inr m a : canon m a -> inr m a.
  Proof. intros H i Hi. specialize (H i Hi). lia. Qed.
  Lemma inr_wrd m a : okq (mq m) -> inr m a -> wrd a.
  Proof. intros K H i Hi. specialize (H i Hi). apply okq_lt in K. lia. Qed.

  Lemma cred_le (a q : Z) : 0 <= a <= 2 * q -> 0 <= cred a q <= q /\ eqz q (cred a q) a.
  Proof.
    intros H. unfold cred. destruct (Z.leb_spec q a).
    - split; [lia|]. exists (-1). lia.
    - split; [lia|]. reflexivity.
  Qed.

  Lemma r_add_ok m a b : okq (mq m) -> inr m a -> inr m b -> inr m (r_add m a b) /\ eqm (mq m) (r_add m a b) (add a b).
  Proof.
    intros [P K] A B.
    assert (E : forall i, (i < N)%nat -> 0 <= co (r_add m a b) i <= mq m /\ eqz (mq m) (co (r_add m a b) i) (co a i + co b i)).
    { intros i Hi. unfold r_add. rewrite co_mkR by assumption. specialize (A i Hi). specialize (B i Hi).
      assert (X : w64 (co a i + co b i) = co a i + co b i) by (apply Z.mod_small; unfold W; lia). rewrite X. apply cred_le. lia. }
    split; [intros i Hi; apply E; assumption|]. apply eqm_co. intros i Hi. rewrite co_add. apply E. assumption.
  Qed.
  Lemma r_add_canon m a b : okq (mq m) -> inr m a -> canon m b -> canon m (r_add m a b).
  Proof.
    intros [P K] A B i Hi. unfold r_add. rewrite co_mkR by assumption. specialize (A i Hi). specialize (B i Hi).
    assert (X : w64 (co a i + co b i) = co a i + co b i) by (apply Z.mod_small; unfold W; lia). rewrite X. apply cred_ok. lia.
  Qed.
  Lemma r_sub_ok m a b : okq (mq m) -> inr m a -> inr m b -> inr m (r_sub m a b) /\ eqm (mq m) (r_sub m a b) (sub a b).
  Proof.
    intros [P K] A B.
    assert (E : forall i, (i < N)%nat -> 0 <= co (r_sub m a b) i <= mq m /\ eqz (mq m) (co (r_sub m a b) i) (co a i - co b i)).
    { intros i Hi. unfold r_sub. rewrite co_mkR by assumption. specialize (A i Hi). specialize (B i Hi).
      assert (X : w64 (co a i + mq m - co b i) = co a i + mq m - co b i) by (apply Z.mod_small; unfold W; lia). rewrite X.
      destruct (cred_le (co a i + mq m - co b i) (mq m) ltac:(lia)) as [C1 C2]. split; [assumption|]. rewrite C2. exists 1. ring. }
    split; [intros i Hi; apply E; assumption|]. apply eqm_co. intros i Hi. rewrite co_sub. apply E. assumption.
  Qed.
  Lemma r_neg_ok m a : okq (mq m) -> inr m a -> inr m (r_neg m a) /\ eqm (mq m) (r_neg m a) (opp a).
  Proof.
    intros [P K] A.
    assert (E : forall i, (i < N)%nat -> co (r_neg m a) i = mq m - co a i).
    { intros i Hi. unfold r_neg. rewrite co_mkR by assumption. specialize (A i Hi). apply Z.mod_small. unfold W. lia. }
    split.
    - intros i Hi. rewrite E by assumption. specialize (A i Hi). lia.
    - apply eqm_co. intros i Hi. rewrite co_opp, E by assumption. exists 1. ring.
  Qed.

  Lemma r_mont_ok m a b : okq (mq m) -> inr m a -> wrd b ->
    canon m (r_mont m a b) /\ forall i, (i < N)%nat -> eqz (mq m) (W * co (r_mont m a b) i) (co a i * co b i).
  Proof.
    intros K A B. pose proof K as [P Q].
    assert (E : forall i, (i < N)%nat -> 0 <= co (r_mont m a b) i < mq m /\ eqz (mq m) (W * co (r_mont m a b) i) (co a i * co b i)).
    { intros i Hi. unfold r_mont. rewrite co_mkR by assumption. specialize (A i Hi). specialize (B i Hi).
      apply mred_ok; try lia; [apply okq_odd; assumption|]. nia. }
    split; intros i Hi; apply E; assumption.
  Qed.
  Lemma r_mont_comm m a b : r_mont m a b = r_mont m b a.
  Proof. apply mkR_ext. intros i Hi. unfold mred, mul_hi, mul_lo. rewrite (Z.mul_comm (co a i)). reflexivity. Qed.
  Lemma r_mform_ok m a : okq (mq m) -> wrd a -> canon m (r_mform m a) /\ eqm (mq m) (r_mform m a) (smul W a).
  Proof.
    intros K A.
    assert (E : forall i, (i < N)%nat -> 0 <= co (r_mform m a) i < mq m /\ eqz (mq m) (co (r_mform m a) i) (co a i * W)).
    { intros i Hi. unfold r_mform. rewrite co_mkR by assumption. apply mform_mont; [assumption|]. apply A. assumption. }
    split; [intros i Hi; apply E; assumption|]. apply eqm_co. intros i Hi. rewrite co_smul. fold (eqz (mq m) (co (r_mform m a) i) (W * co a i)).
    destruct (E i Hi) as [_ X]. rewrite X. apply eqz_eq. ring.
  Qed.
  Lemma r_invmform_ok m a : okq (mq m) -> wrd a -> canon m (r_invmform m a) /\ eqm (mq m) (smul W (r_invmform m a)) a.
  Proof.
    intros K A. pose proof (okq_lt _ K) as QL.
    assert (E : forall i, (i < N)%nat -> 0 <= co (r_invmform m a) i < mq m /\ eqz (mq m) (W * co (r_invmform m a) i) (co a i)).
    { intros i Hi. unfold r_invmform. rewrite co_mkR by assumption. specialize (A i Hi). destruct K as [P Q].
      destruct (mred_ok (co a i) 1 (mq m)) as [X Y]; try lia; try (apply okq_odd; split; assumption); [nia|]. rewrite Z.mul_1_r in Y. split; assumption. }
    split; [intros i Hi; apply E; assumption|]. apply eqm_co. intros i Hi. rewrite co_smul. apply E. assumption.
  Qed.
  Lemma r_mont_sub_ok0 m a b c : okq (mq m) -> inr m a -> wrd b -> inr m c ->
    inr m (r_mont_sub m a b c) /\ eqm (mq m) (r_mont_sub m a b c) (sub c (r_mont m a b)).
  Proof.
    intros K A B C. destruct (r_mont_ok m a b K A B) as [M _]. pose proof K as [P Q].
    assert (E : forall i, (i < N)%nat -> 0 <= co (r_mont_sub m a b c) i <= mq m /\ eqz (mq m) (co (r_mont_sub m a b c) i) (co c i - co (r_mont m a b) i)).
    { intros i Hi. unfold r_mont_sub. rewrite co_mkR by assumption. specialize (C i Hi). specialize (M i Hi).
      assert (X : w64 (co c i + (mq m - co (r_mont m a b) i)) = co c i + (mq m - co (r_mont m a b) i)) by (apply Z.mod_small; unfold W; lia). rewrite X.
      destruct (cred_le (co c i + (mq m - co (r_mont m a b) i)) (mq m) ltac:(lia)) as [C1 C2]. split; [assumption|]. rewrite C2. exists 1. ring. }
    split; [intros i Hi; apply E; assumption|]. apply eqm_co. intros i Hi. rewrite co_sub. apply E. assumption.
  Qed.

  (** *** meaning of NTT-domain rows *)
  (** [a] is the NTT of (an element congruent to) x *)
  Definition rep m a (x : R) : Prop := eqm (mq m) (intt m a) x.
  (** [a] is the Montgomery form of the NTT of x *)
  Definition repM m a (x : R) : Prop := eqm (mq m) (intt m a) (smul W x).

  Lemma eqm_Wcancel m a b : okq (mq m) -> eqm (mq m) (smul W a) (smul W b) -> eqm (mq m) a b.
  Proof. intros K. apply eqm_cancel. apply okq_W. assumption. Qed.

  Lemma rep_eqm m a x y : rep m a x -> eqm (mq m) x y -> rep m a y.
  Proof. unfold rep. intros H E. rewrite H. exact E. Qed.
  Lemma repM_eqm m a x y : repM m a x -> eqm (mq m) x y -> repM m a y.
  Proof. unfold repM. intros H E. rewrite H, E. reflexivity. Qed.
  Lemma rep_ntt m x : okmod m -> rep m (ntt m x) x.
  Proof. intros [K _]. unfold rep. apply intt_ntt. assumption. Qed.
  Lemma rep_row m a b x : okmod m -> eqm (mq m) a b -> rep m b x -> rep m a x.
  Proof. intros [K _] E H. unfold rep. rewrite (intt_eqm m K a b E). exact H. Qed.
  Lemma repM_row m a b x : okmod m -> eqm (mq m) a b -> repM m b x -> repM m a x.
  Proof. intros [K _] E H. unfold repM. rewrite (intt_eqm m K a b E). exact H. Qed.
  Lemma rep_add m a b x y : okmod m -> inr m a -> inr m b -> rep m a x -> rep m b y -> rep m (r_add m a b) (add x y).
  Proof.
    intros K A B X Y. destruct (r_add_ok m a b (proj2 K) A B) as [_ E]. apply (rep_row m _ _ _ K E).
    unfold rep in *. destruct K as [K1 K2]. rewrite (intt_add m K1), X, Y. reflexivity.
  Qed.
  Lemma repM_add m a b x y : okmod m -> inr m a -> inr m b -> repM m a x -> repM m b y -> repM m (r_add m a b) (add x y).
  Proof.
    intros K A B X Y. destruct (r_add_ok m a b (proj2 K) A B) as [_ E]. apply (repM_row m _ _ _ K E).
    unfold repM in *. destruct K as [K1 K2]. rewrite (intt_add m K1), X, Y, !smul_cst. match goal with |- eqm _ ?l ?r => replace l with r by ring end. reflexivity.
  Qed.
  Lemma rep_sub m a b x y : okmod m -> inr m a -> inr m b -> rep m a x -> rep m b y -> rep m (r_sub m a b) (sub x y).
  Proof.
    intros K A B X Y. destruct (r_sub_ok m a b (proj2 K) A B) as [_ E]. apply (rep_row m _ _ _ K E).
    unfold rep in *. destruct K as [K1 K2]. rewrite (intt_sub m K1), X, Y. reflexivity.
  Qed.
  Lemma intt_opp m a : okm (N := N) m -> eqm (mq m) (intt m (opp a)) (opp (intt m a)).
  Proof.
    intros K. replace (opp a) with (smul (-1) a) by (rewrite smul_cst, (cst_opp 1); change (cst 1) with (@R1 N); ring).
    rewrite (intt_smul m K). rewrite smul_cst, (cst_opp 1). change (cst 1) with (@R1 N).
    match goal with |- eqm _ ?l ?r => replace l with r by ring end. reflexivity.
  Qed.
  Lemma repM_neg m a x : okmod m -> inr m a -> repM m a x -> repM m (r_neg m a) (opp x).
  Proof.
    intros K A X. destruct (r_neg_ok m a (proj2 K) A) as [_ E]. apply (repM_row m _ _ _ K E).
    unfold repM in *. destruct K as [K1 K2]. rewrite (intt_opp m a K1), X, !smul_cst.
    match goal with |- eqm _ ?l ?r => replace l with r by ring end. reflexivity.
  Qed.

  Lemma intt_mont m a b : okmod m -> inr m a -> wrd b -> eqm (mq m) (smul W (intt m (r_mont m a b))) (mul (intt m a) (intt m b)).
  Proof.
    intros [K1 K2] A B. destruct (r_mont_ok m a b K2 A B) as [_ E].
    rewrite <- (intt_smul m K1), <- (intt_had m K1).
    rewrite (intt_eqm m K1 (smul W (r_mont m a b)) (had a b)); [reflexivity|].
    apply eqm_co. intros i Hi. rewrite co_smul. unfold had. rewrite co_mkR by assumption. apply E. assumption.
  Qed.
  (** MulCoeffsMontgomery of a Montgomery-form row and a plain row: plain product *)
  Lemma rep_mont m a b x y : okmod m -> inr m a -> wrd b -> repM m a x -> rep m b y -> rep m (r_mont m a b) (mul x y).
  Proof.
    intros K A B X Y. unfold rep. apply (eqm_Wcancel m _ _ (proj2 K)). rewrite (intt_mont m a b K A B).
    unfold repM, rep in *. rewrite X, Y, !smul_cst. match goal with |- eqm _ ?l ?r => replace l with r by ring end. reflexivity.
  Qed.
  (** of two Montgomery-form rows: Montgomery form of the product *)
  Lemma repM_mont m a b x y : okmod m -> inr m a -> wrd b -> repM m a x -> repM m b y -> repM m (r_mont m a b) (mul x y).
  Proof.
    intros K A B X Y. unfold repM. apply (eqm_Wcancel m _ _ (proj2 K)). rewrite (intt_mont m a b K A B).
    unfold repM, rep in *. rewrite X, Y, !smul_cst. match goal with |- eqm _ ?l ?r => replace l with r by ring end. reflexivity.
  Qed.
  (** of two plain rows: off by W^-1; stated for the plain-times-plain products of the encryptor *)
  Lemma rep_mform m a x : okmod m -> wrd a -> rep m a x -> repM m (r_mform m a) x.
  Proof.
    intros K A X. destruct (r_mform_ok m a (proj2 K) A) as [_ E]. apply (repM_row m _ _ _ K E).
    unfold repM, rep in *. destruct K as [K1 K2]. rewrite (intt_smul m K1), X. reflexivity.
  Qed.
  Lemma repM_invmform m a x : okmod m -> wrd a -> repM m a x -> rep m (r_invmform m a) x.
  Proof.
    intros K A X. destruct (r_invmform_ok m a (proj2 K) A) as [_ E].
    unfold rep. apply (eqm_Wcancel m _ _ (proj2 K)). destruct K as [K1 K2].
    rewrite <- (intt_smul m K1), (intt_eqm m K1 _ _ E). exact X.
  Qed.
  Lemma rep_mont_add m a b c x y z : okmod m -> inr m a -> wrd b -> inr m c -> repM m a x -> rep m b y -> rep m c z ->
    canon m (r_mont_add m a b c) /\ rep m (r_mont_add m a b c) (add z (mul x y)).
  Proof.
    intros K A B C X Y Z. destruct (r_mont_ok m a b (proj2 K) A B) as [M _]. split.
    - apply r_add_canon; [apply K|assumption|assumption].
    - apply rep_add; trivial; [apply canon_inr; assumption|]. apply rep_mont; assumption.
  Qed.
  Lemma repM_mont_add m a b c x y z : okmod m -> inr m a -> wrd b -> inr m c -> repM m a x -> repM m b y -> repM m c z ->
    inr m (r_mont_add m a b c) /\ repM m (r_mont_add m a b c) (add z (mul x y)).
  Proof.
    intros K A B C X Y Z. destruct (r_mont_ok m a b (proj2 K) A B) as [M _]. split.
    - apply r_add_ok; [apply K|assumption|apply canon_inr; assumption].
    - apply repM_add; trivial; [apply canon_inr; assumption|]. apply repM_mont; assumption.
  Qed.
  Lemma repM_mont_sub m a b c x y z : okmod m -> inr m a -> wrd b -> inr m c -> repM m a x -> repM m b y -> repM m c z ->
    inr m (r_mont_sub m a b c) /\ repM m (r_mont_sub m a b c) (sub z (mul x y)).
  Proof.
    intros K A B C X Y Z. destruct (r_mont_sub_ok0 m a b c (proj2 K) A B C) as [M E]. split; [assumption|].
    apply (repM_row m _ _ _ K E). pose proof (repM_mont m a b x y K A B X Y) as XY. unfold repM in *.
    destruct K as [K1 K2]. rewrite (intt_sub m K1), Z, XY, !smul_cst. match goal with |- eqm _ ?l ?r => replace l with r by ring end. reflexivity.
  Qed.
  Lemma rep_mont_sub m a b c x y z : okmod m -> inr m a -> wrd b -> inr m c -> repM m a x -> rep m b y -> rep m c z ->
    inr m (r_mont_sub m a b c) /\ rep m (r_mont_sub m a b c) (sub z (mul x y)).
  Proof.
    intros K A B C X Y Z. destruct (r_mont_sub_ok0 m a b c (proj2 K) A B C) as [M E]. split; [assumption|].
    apply (rep_row m _ _ _ K E). pose proof (rep_mont m a b x y K A B X Y) as XY. unfold rep in *.
    destruct K as [K1 K2]. rewrite (intt_sub m K1), Z, XY. reflexivity.
  Qed.
  Lemma rep_zero m : okmod m -> rep m R0 R0.
  Proof. intros [K _]. unfold rep. apply intt_R0. assumption. Qed.
  Lemma canon_zero m : okq (mq m) -> canon m R0.
  Proof. intros K i Hi. rewrite co_R0. apply okq_lt in K. lia. Qed.
  Lemma ntt_canon m a : okmod m -> canon m (ntt m a).
  Proof. intros [K _] i Hi. apply ntt_range; assumption. Qed.
  Lemma intt_canon m a : okmod m -> canon m (intt m a).
  Proof. intros [K _] i Hi. apply intt_range; assumption. Qed.
  Lemma canon_wrd m a : okq (mq m) -> canon m a -> wrd a.
  Proof. intros K H. apply (inr_wrd m); [assumption|]. apply canon_inr. assumption. Qed.
  Lemma canon_eqm m a b : okq (mq m) -> canon m a -> canon m b -> eqm (mq m) a b -> a = b.
  Proof.
    intros K A B E. apply R_ext. intros i Hi. pose proof (okq_lt _ K).
    pose proof (proj1 (eqm_eqmod (mq m) a b ltac:(lia)) E i Hi) as X. specialize (A i Hi). specialize (B i Hi).
    rewrite !Z.mod_small in X by lia. assumption.
  Qed.
End Rows.

(** ** operations on all the coefficients of a polynomial *)
Definition col {N} (rows : list (R N)) (i : nat) : list Z := map (fun r => co r i) rows.
(** run a column function for every coefficient and collect [n] output rows *)
Definition colmap {N} (n : nat) (F : nat -> res (list Z)) : res (list (R N)) :=
  cols <- rmapM F (seq 0 N) ;;
  Ok (tab n (fun j => mkR (fun i => nth j (nth i cols nil) 0))).

Lemma col_nth {N} (rows : list (R N)) i j : (j < length rows)%nat -> nth j (col rows i) 0 = co (row rows j) i.
Proof. intros H. unfold col, row. rewrite (nth_map' _ _ _ R0) by assumption. reflexivity. Qed.
Lemma col_length {N} (rows : list (R N)) i : length (col rows i) = length rows.
Proof. apply map_length. Qed.

Lemma colmap_ok {N} n (F : nat -> res (list Z)) (Pp : nat -> list Z -> Prop) :
  (forall i, (i < N)%nat -> exists o, F i = Ok o /\ Pp i o) ->
  exists rows : list (R N), colmap n F = Ok rows /\ length rows = n /\
    forall i, (i < N)%nat -> exists o, F i = Ok o /\ Pp i o /\ forall j, (j < n)%nat -> co (row rows j) i = nth j o 0.
Proof.
  intros H. unfold colmap.
  destruct (rmapM_ok F (seq 0 N) (fun i o => F i = Ok o /\ Pp i o)) as (cols & E & FF).
  { intros i Hi. apply in_seq in Hi. destruct (H i ltac:(lia)) as (o & E & P). exists o. auto. }
  rewrite E. cbn [rbind]. eexists. split; [reflexivity|]. split; [apply tab_length|].
  intros i Hi. exists (nth i cols nil).
  pose proof (Forall2_nth _ _ _ i O nil FF) as FN. rewrite seq_length, seq_nth in FN by assumption. destruct (FN Hi) as [F1 F2].
  split; [assumption|]. split; [assumption|]. intros j Hj. unfold row. rewrite nth_tab by assumption. apply co_mkR. assumption.
Qed.
