(** The integers of mkbfv's gadget (keygen.go:105-120, 134-149): CRT idempotents of the blocks of R = Q*QMul, scaled by t*P/QMul. *)
From Verif Require Import Base NumTheory Negacyclic Ntt Word BasisExt BasisExtProofs DecompProofs Rows RlweModel SchemeSpec ExtProd ExtProps KeyGenModel KeyGenProofs BfvMulModel BfvConv.
From Coq Require Import Znumtheory.
Open Scope Z_scope.

(** extended Euclid *)
Lemma egcd_ok fuel : forall a b, 0 < a -> 0 <= b <= a -> (b = 0 \/ Z.log2 (a * b) + 1 <= Z.of_nat fuel) ->
  let '(g, x, y) := egcd fuel a b in g = Z.gcd a b /\ a * x + b * y = g.
Proof.
  induction fuel as [|f IH]; intros a b Ha Hb HF.
  - destruct HF as [->|HF]; [|exfalso; pose proof (Z.log2_nonneg (a * b)); lia]. cbn [egcd]. rewrite Z.gcd_0_r. lia.
  - cbn [egcd]. destruct (Z.eqb_spec b 0) as [->|NB]; [rewrite Z.gcd_0_r; lia|].
    pose proof (Z.mod_pos_bound a b ltac:(lia)) as MB. pose proof (Z.div_mod a b NB) as DM.
    specialize (IH b (a mod b) ltac:(lia) ltac:(lia)).
    destruct (egcd f b (a mod b)) as [[g x] y]. destruct IH as [I1 I2].
    + destruct (Z.eq_dec (a mod b) 0) as [->|NZ]; [left; reflexivity|right]. destruct HF as [->|HF]; [lia|].
      assert (Q1 : 1 <= a / b) by (apply Z.div_le_lower_bound; lia).
      assert (H2 : 2 * (b * (a mod b)) <= a * b) by nia.
      assert (0 < b * (a mod b)) by nia. pose proof (Z.log2_le_mono _ _ H2) as LM. rewrite Z.log2_double in LM by lia. lia.
    + rewrite I1. split; [rewrite (Z.gcd_comm b), Z.gcd_mod by lia; apply Z.gcd_comm|]. rewrite <- I1, <- I2. rewrite DM at 1. ring.
Qed.
Lemma egcd_start a n : 0 < a -> 0 < n -> let '(g, x, y) := egcd (Z.to_nat (Z.log2 (a * n)) + 2) a n in g = Z.gcd a n /\ a * x + n * y = g.
Proof.
  intros Ha Hn. pose proof (Z.log2_nonneg (a * n)) as LN. destruct (Z.le_gt_cases n a) as [C|C].
  - apply egcd_ok; lia.
  - replace (Z.to_nat (Z.log2 (a * n)) + 2)%nat with (S (Z.to_nat (Z.log2 (a * n)) + 1)) by lia. cbn [egcd]. destruct (Z.eqb_spec n 0); [lia|].
    rewrite Z.mod_small, Z.div_small by lia.
    pose proof (egcd_ok (Z.to_nat (Z.log2 (a * n)) + 1) n a Hn ltac:(lia)) as H.
    destruct (egcd (Z.to_nat (Z.log2 (a * n)) + 1) n a) as [[g x] y]. destruct H as [H1 H2]; [right; rewrite (Z.mul_comm n a); lia|].
    rewrite Z.gcd_comm. split; [assumption|]. lia.
Qed.
Lemma mod_inverse_ok a n : 0 < a -> 1 < n -> Z.gcd a n = 1 -> 0 <= mod_inverse a n < n /\ (n | a * mod_inverse a n - 1).
Proof.
  intros Ha Hn G. unfold mod_inverse. pose proof (egcd_start a n Ha ltac:(lia)) as H. destruct (egcd _ a n) as [[g x] y]. destruct H as [H1 H2].
  split; [apply Z.mod_pos_bound; lia|]. pose proof (Z.div_mod x n ltac:(lia)) as DM. exists (- (y + a * (x / n))).
  assert (E : a * x + n * y = 1) by lia. rewrite DM in E at 1. nia.
Qed.

Lemma fold_mul l : forall z, fold_left Z.mul l z = z * prodl l.
Proof. induction l as [|x l IH]; intros z; cbn [fold_left prodl]; [lia|]. rewrite IH. ring. Qed.

Lemma skipn_skipn' {A} m (l : list A) : forall s, skipn m (skipn s l) = skipn (s + m) l.
Proof. induction l as [|x l IH]; intros s; [rewrite !skipn_nil; reflexivity|]. destruct s; [reflexivity|]. cbn [skipn plus]. apply IH. Qed.
(** one list of primes cut in three *)
Lemma prodl_cut (l : list Z) s m : prodl l = prodl (firstn s l) * prodl (firstn m (skipn s l)) * prodl (skipn (s + m) l).
Proof.
  rewrite <- (firstn_skipn s l) at 1. rewrite prodl_app. rewrite <- (firstn_skipn m (skipn s l)) at 1. rewrite prodl_app, skipn_skipn'. ring.
Qed.
Lemma nodup_sep {A} (l : list A) d i j : NoDup l -> (i < length l)%nat -> (j < length l)%nat -> nth i l d = nth j l d -> i = j.
Proof. intros ND Hi Hj E. apply (proj1 (NoDup_nth l d)); assumption. Qed.

Section Gadget.
  Context {N : nat} (b : bparams) (WB : wfb N b).
  Notation n := (length (bQ b)).
  Notation al := (alpha (ppQ b)).
  Definition bbeta : nat := beta (ppQ b) (maxLevel (ppQ b)).
  Hypothesis HD : (n mod al = 0)%nat.

  Lemma al_R : alpha (ppR b) = al. Proof. reflexivity. Qed.
  Lemma al_pos : (0 < al <= 32)%nat. Proof. exact (wf_alpha _ _ (wb_R _ _ WB)). Qed.
  Lemma beta_n : (bbeta * al = n)%nat.
  Proof.
    pose proof al_pos. pose proof (wb_32 _ _ WB). unfold bbeta, beta. destruct (beta_exact (maxLevel (ppQ b)) al) as [E _]; try (unfold maxLevel; cbn [ppQ Qm]; lia).
    rewrite E. unfold maxLevel. cbn [ppQ Qm]. pose proof (Nat.div_mod n al ltac:(lia)) as DM. rewrite HD in DM.
    replace (n - 1 + 1 + al - 1)%nat with (n / al * al + (al - 1))%nat by lia.
    rewrite Nat.div_add_l, (Nat.div_small (al - 1)) by lia. lia.
  Qed.
  Lemma bbeta_pos : (0 < bbeta)%nat.
  Proof. pose proof beta_n. pose proof (wb_32 _ _ WB). destruct bbeta; lia. Qed.

  (** the moduli of R, the block number k, the product of the block *)
  Definition Rs : list Z := Qs (ppR b).
  Definition Rblk (k : nat) : list Z := firstn al (skipn (k * al) Rs).
  Definition Rk (k : nat) : Z := prodl (Rblk k).
  Definition Rtot : Z := qprod b * mprod b.
  Lemma Rs_len : length Rs = (n + n)%nat.
  Proof. unfold Rs. rewrite Rs_eq, app_length, (Qs_len b), (Ms_len b WB). reflexivity. Qed.
  Lemma Rs_base : okbase Rs.
  Proof. unfold Rs. rewrite Rs_eq. apply (base_QM b WB). Qed.
  Lemma Rtot_prod : Rtot = prodl Rs.
  Proof. unfold Rs. rewrite Rs_eq, prodl_app. reflexivity. Qed.
  Lemma Rs_nth j : (j < n + n)%nat -> nth j Rs 0 = mq (Qi (ppR b) j).
  Proof. intros H. apply nth_Qs. cbn [ppR Qm]. rewrite app_length, <- (wb_len _ _ WB). assumption. Qed.
  Lemma Rs_okq j : (j < n + n)%nat -> okq (nth j Rs 0).
  Proof. intros H. apply (proj1 (Forall_forall _ _) (proj2 Rs_base)). apply nth_In. rewrite Rs_len. assumption. Qed.
  Lemma Rblk_full k : (k < bbeta + bbeta)%nat -> ((k + 1) * al <= n + n)%nat.
  Proof. intros H. pose proof beta_n. nia. Qed.
  Lemma Rblk_len k : (k < bbeta + bbeta)%nat -> length (Rblk k) = al.
  Proof. intros H. pose proof (Rblk_full k H). unfold Rblk. rewrite firstn_length, skipn_length, Rs_len. lia. Qed.
  Lemma Rblk_nth k i : (i < al)%nat -> nth i (Rblk k) 0 = nth (k * al + i) Rs 0.
  Proof. intros H. unfold Rblk. rewrite nth_firstn by assumption. rewrite nth_skipn. reflexivity. Qed.
  Lemma Rblk_in k p : (k < bbeta + bbeta)%nat -> In p (Rblk k) -> exists j, (k * al <= j < (k + 1) * al)%nat /\ p = nth j Rs 0.
  Proof.
    intros H I. apply (In_nth _ _ 0) in I. destruct I as (i & Hi & <-). rewrite Rblk_len in Hi by assumption. exists (k * al + i)%nat. split; [lia|]. apply Rblk_nth. assumption.
  Qed.
  Lemma Rk_div k j : (k < bbeta + bbeta)%nat -> (k * al <= j < (k + 1) * al)%nat -> (nth j Rs 0 | Rk k).
  Proof.
    intros H Hj. replace j with (k * al + (j - k * al))%nat by lia. rewrite <- Rblk_nth by lia. apply in_divide_prodl. apply nth_In. rewrite Rblk_len by assumption. lia.
  Qed.
  Lemma Rk_big k : (k < bbeta + bbeta)%nat -> 1 < Rk k.
  Proof.
    intros H. pose proof al_pos. destruct (Rk_div k (k * al)%nat H ltac:(lia)) as [z Hz]. pose proof (Rblk_full k H). destruct (Rs_okq (k * al) ltac:(nia)) as [_ B].
    assert (0 < Rk k). { apply prodl_pos. intros p Hp. destruct (Rblk_in k p H Hp) as (j & Hj & ->). destruct (Rs_okq j ltac:(lia)). lia. }
    assert (0 < z) by (rewrite Hz in *; nia). rewrite Hz. nia.
  Qed.

  (** G_k = R / R_k *)
  Definition Gk (k : nat) : Z := Rtot / Rk k.
  Lemma Gk_eq k : (k < bbeta + bbeta)%nat -> Gk k = prodl (firstn (k * al) Rs) * prodl (skipn (k * al + al) Rs).
  Proof.
    intros H. unfold Gk. rewrite Rtot_prod, (prodl_cut Rs (k * al) al). fold (Rblk k) (Rk k). pose proof (Rk_big k H).
    replace (prodl (firstn (k * al) Rs) * Rk k * prodl (skipn (k * al + al) Rs)) with (prodl (firstn (k * al) Rs) * prodl (skipn (k * al + al) Rs) * Rk k) by ring.
    apply Z.div_mul. lia.
  Qed.
  Lemma Gk_pos k : (k < bbeta + bbeta)%nat -> 0 < Gk k.
  Proof.
    intros H. rewrite Gk_eq by assumption. destruct Rs_base as [_ F].
    assert (P : forall p, In p Rs -> 0 < p) by (intros p Hp; apply (proj1 (Forall_forall _ _) F) in Hp; apply okq_lt in Hp; lia).
    apply Z.mul_pos_pos; apply prodl_pos; intros p Hp; apply P; [rewrite <- (firstn_skipn (k * al) Rs)|rewrite <- (firstn_skipn (k * al + al) Rs)]; apply in_or_app; tauto.
  Qed.
  Lemma Gk_other k j : (k < bbeta + bbeta)%nat -> (j < n + n)%nat -> ~ (k * al <= j < (k + 1) * al)%nat -> (nth j Rs 0 | Gk k).
  Proof.
    intros H Hj NB. rewrite Gk_eq by assumption. destruct (Nat.ltb_spec j (k * al)) as [C|C].
    - apply Z.divide_mul_l. apply in_divide_prodl. rewrite <- (nth_firstn (k * al) Rs j 0) by assumption. apply nth_In. rewrite firstn_length, Rs_len. lia.
    - apply Z.divide_mul_r. apply in_divide_prodl. replace j with (k * al + al + (j - (k * al + al)))%nat by lia. rewrite <- nth_skipn. apply nth_In. rewrite skipn_length, Rs_len. lia.
  Qed.
  Lemma Gk_coprime k : (k < bbeta + bbeta)%nat -> Z.gcd (Gk k) (Rk k) = 1.
  Proof.
    intros H. unfold Rk. apply coprime_prod. intros p Hp. destruct (Rblk_in k p H Hp) as (j & Hj & ->). pose proof (Rblk_full k H).
    destruct (Rs_okq j ltac:(lia)) as [PR _]. apply prime_gcd; [assumption|]. rewrite Gk_eq by assumption. intros D. apply prime_mult in D; [|assumption].
    destruct Rs_base as [ND F]. assert (PA : forall p, In p Rs -> prime p) by (intros p Hp'; apply (proj1 (Forall_forall _ _) F) in Hp'; apply Hp').
    destruct D as [D|D]; apply (prime_divide_prodl (nth j Rs 0)) in D; trivial.
    - intros p Hp'. apply PA. rewrite <- (firstn_skipn (k * al) Rs). apply in_or_app. left. assumption.
    - intros I. apply (In_nth _ _ 0) in I. destruct I as (i & Hi & E). rewrite firstn_length, Rs_len in Hi. rewrite nth_firstn in E by lia.
      apply (nodup_sep Rs 0 i j ND) in E; rewrite ?Rs_len; lia.
    - intros p Hp'. apply PA. rewrite <- (firstn_skipn (k * al + al) Rs). apply in_or_app. right. assumption.
    - intros I. apply (In_nth _ _ 0) in I. destruct I as (i & Hi & E). rewrite skipn_length, Rs_len in Hi. rewrite nth_skipn in E.
      apply (nodup_sep Rs 0 (k * al + al + i) j ND) in E; rewrite ?Rs_len; lia.
  Qed.

  (** the idempotent of block k *)
  Definition Ek (k : nat) : Z := Gk k * mod_inverse (Gk k) (Rk k).
  Lemma Ek_nonneg k : (k < bbeta + bbeta)%nat -> 0 <= Ek k.
  Proof. intros H. pose proof (Gk_pos k H). destruct (mod_inverse_ok (Gk k) (Rk k) (Gk_pos k H) (Rk_big k H) (Gk_coprime k H)) as [I _]. unfold Ek. nia. Qed.
  Lemma Ek_in k j : (k < bbeta + bbeta)%nat -> (k * al <= j < (k + 1) * al)%nat -> eqz (nth j Rs 0) (Ek k) 1.
  Proof.
    intros H Hj. destruct (mod_inverse_ok (Gk k) (Rk k) (Gk_pos k H) (Rk_big k H) (Gk_coprime k H)) as [_ I]. unfold eqz. apply Z.divide_trans with (Rk k); [apply Rk_div; assumption|exact I].
  Qed.
  Lemma Ek_out k j : (k < bbeta + bbeta)%nat -> (j < n + n)%nat -> ~ (k * al <= j < (k + 1) * al)%nat -> eqz (nth j Rs 0) (Ek k) 0.
  Proof.
    intros H Hj NB. unfold eqz. rewrite Z.sub_0_r. unfold Ek. apply Z.divide_mul_l. apply Gk_other; assumption.
  Qed.

  (** the scaled gadget *)
  Definition gk (k : nat) : Z := Ek k * bT b * Pprod (ppQ b) / mprod b.
  Definition rk (k : nat) : Z := (Ek k * bT b * Pprod (ppQ b)) mod mprod b.
  Lemma gk_eq k : mprod b * gk k + rk k = bT b * Pprod (ppQ b) * Ek k.
  Proof. unfold gk, rk. pose proof (mprod_pos b WB). rewrite <- Z.div_mod by lia. ring. Qed.
  Lemma rk_bnd k : 0 <= rk k < mprod b.
  Proof. apply Z.mod_pos_bound. apply (mprod_pos b WB). Qed.

  Lemma gadInt_gen ms i k : (k < bbeta + bbeta)%nat -> (forall j, (j < al)%nat -> (i * al + j < length ms)%nat /\ nth (i * al + j) ms 0 = nth (k * al + j) Rs 0) ->
    gadInt b ms i = Ok (gk k).
  Proof.
    intros H HM. unfold gadInt. rewrite (rmapM_map _ (fun j => nth (k * al + j) Rs 0)).
    2:{ intros j Hj. apply in_seq in Hj. destruct (HM j ltac:(lia)) as [A B]. rewrite (idx_nth _ _ 0) by assumption. rewrite B. reflexivity. }
    cbn [rbind]. rewrite fold_mul, Z.mul_1_l.
    replace (map (fun j => nth (k * al + j) Rs 0) (seq 0 al)) with (Rblk k).
    { change (prodl (Rblk k)) with (Rk k). change (qprod b * mprod b / Rk k) with (Gk k). f_equal. unfold gk, Ek. f_equal. ring. }
    apply (nth_ext _ _ 0 0); [rewrite Rblk_len, map_length, seq_length by assumption; reflexivity|].
    intros j Hj. rewrite Rblk_len in Hj by assumption. rewrite Rblk_nth by assumption. rewrite (nth_map' _ _ _ 0%nat) by (rewrite seq_length; assumption). rewrite seq_nth by assumption. reflexivity.
  Qed.
  Lemma gadInt_Q i : (i < bbeta)%nat -> gadInt b (Qs (ppQ b)) i = Ok (gk i).
  Proof.
    intros H. pose proof beta_n. apply gadInt_gen; [lia|]. intros j Hj. rewrite (Qs_len b). split; [nia|]. unfold Rs. rewrite Rs_eq, app_nth1; [reflexivity|]. rewrite (Qs_len b). nia.
  Qed.
  Lemma gadInt_M i : (i < bbeta)%nat -> gadInt b (Ms b) i = Ok (gk (bbeta + i)).
  Proof.
    intros H. pose proof beta_n. apply gadInt_gen; [lia|]. intros j Hj. rewrite (Ms_len b WB). split; [nia|]. unfold Rs. rewrite Rs_eq, app_nth2; [|rewrite (Qs_len b); nia].
    rewrite (Qs_len b). f_equal. nia.
  Qed.
End Gadget.

(** alpha must divide the number of moduli: otherwise key generation indexes past the end of the chain *)
Lemma gadInt_panic {N} b (WB : wfb N b) : (length (bQ b) mod alpha (ppQ b) <> 0)%nat -> exists i, (i < beta (ppQ b) (maxLevel (ppQ b)))%nat /\ gadInt b (Qs (ppQ b)) i = Panic.
Proof.
  intros H. pose proof (wf_alpha _ _ (wb_R _ _ WB)) as WA. change (alpha (ppR b)) with (alpha (ppQ b)) in WA. pose proof (wb_32 _ _ WB).
  destruct (beta_exact (maxLevel (ppQ b)) (alpha (ppQ b))) as [_ BE]; try (unfold maxLevel; cbn [ppQ Qm]; lia). fold (beta (ppQ b) (maxLevel (ppQ b))) in BE.
  set (be := beta (ppQ b) (maxLevel (ppQ b))) in *. set (al := alpha (ppQ b)) in *. unfold maxLevel in BE. cbn [ppQ Qm] in BE.
  exists (be - 1)%nat. split; [destruct be; lia|]. unfold gadInt. fold al.
  assert (NE : (al * be <> length (bQ b))%nat) by (intros E; apply H; rewrite <- E, Nat.mul_comm; apply Nat.mod_mul; lia).
  set (j0 := (length (bQ b) - (be - 1) * al)%nat).
  assert (E : rmapM (fun j => idx (Qs (ppQ b)) ((be - 1) * al + j)) (seq 0 al) = Panic); [|rewrite E; reflexivity].
  assert (J : (j0 < al)%nat) by (unfold j0; destruct be; [lia|]; cbn [Nat.sub] in *; rewrite Nat.sub_0_r in *; nia).
  replace al with (j0 + (al - j0))%nat by lia. rewrite seq_app.
  assert (PA : forall l1 l2 (f : nat -> res Z), rmapM f l2 = Panic -> rmapM f (l1 ++ l2) = Panic).
  { clear. induction l1 as [|x l1 IH]; intros l2 f E; [exact E|]. cbn. destruct (f x); cbn; [|reflexivity]. rewrite (IH _ _ E). reflexivity. }
  apply PA. cbn [plus]. destruct (al - j0)%nat as [|m] eqn:E; [lia|]. cbn [seq rmapM].
  replace (idx (Qs (ppQ b)) ((be - 1) * (j0 + S m) + j0)) with (Panic : res Z); [reflexivity|].
  unfold idx. replace (nth_error (Qs (ppQ b)) ((be - 1) * (j0 + S m) + j0)) with (@None Z); [reflexivity|]. symmetry. apply nth_error_None. rewrite (Qs_len b).
  replace (j0 + S m)%nat with al by lia. unfold j0. lia.
Qed.
