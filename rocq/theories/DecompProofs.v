(** Gadget decomposition: DecomposeAndSplit (one coefficient column) and the digit blocks. *)
From Verif Require Import Base NumTheory Negacyclic Ntt Word FloatModel FloatProofs BasisExt BasisExtProofs.
From Coq Require Import Znumtheory.
Open Scope Z_scope.

(** number of moduli of block i when the ciphertext is at levelQ *)
Definition blk_len (alpha levelQ i : nat) : nat := Nat.min alpha (S levelQ - i * alpha).
Definition blk {A} (alpha levelQ i : nat) (l : list A) : list A := firstn (blk_len alpha levelQ i) (skipn (i * alpha) l).

(** the integer represented by digit i *)
Definition dig_int (Q : list Z) (alpha levelQ i : nat) (rows : list Z) : Z :=
  if (blk_len alpha levelQ i =? 1)%nat then nth (i * alpha) rows 0
  else modup_int (blk alpha levelQ i Q) (blk alpha levelQ i rows).

Lemma decomp_lvl_blk alpha levelQ i : (0 < alpha)%nat -> (i * alpha <= levelQ)%nat ->
  decomp_lvl levelQ alpha i = Z.of_nat (blk_len alpha levelQ i) - 2.
Proof.
  intros A H. unfold decomp_lvl, blk_len. destruct (Nat.ltb_spec (alpha * (i + 1) - 1) levelQ) as [L|L].
  - replace (Nat.min alpha (S levelQ - i * alpha)) with alpha by nia. reflexivity.
  - assert (E : (levelQ mod alpha = levelQ - i * alpha)%nat).
    { symmetry. apply (Nat.mod_unique levelQ alpha i); nia. }
    rewrite E. replace (Nat.min alpha (S levelQ - i * alpha)) with (S levelQ - i * alpha)%nat by nia. nia.
Qed.

Lemma ceil_nat a b : (0 < b)%nat -> Z.of_nat a < 2 ^ 52 -> Z.of_nat b < 2 ^ 52 ->
  Z.to_nat (f_ceil_div (Z.of_nat a) (Z.of_nat b)) = ((a + b - 1) / b)%nat.
Proof.
  intros Hb A B. rewrite f_ceil_div_ok by lia.
  replace (Z.of_nat a + Z.of_nat b - 1) with (Z.of_nat (a + b - 1)) by lia.
  rewrite <- Nat2Z.inj_div, Nat2Z.id. reflexivity.
Qed.

Lemma blk_length {A} alpha levelQ i (l : list A) : (levelQ < length l)%nat ->
  length (blk alpha levelQ i l) = blk_len alpha levelQ i.
Proof. intros H. unfold blk. rewrite firstn_length, skipn_length. unfold blk_len. lia. Qed.

Lemma blk_nth alpha levelQ i (l : list Z) k : (k < blk_len alpha levelQ i)%nat -> nth k (blk alpha levelQ i l) 0 = nth (i * alpha + k) l 0.
Proof. intros H. unfold blk. rewrite nth_firstn, nth_skipn by assumption. reflexivity. Qed.

Lemma nth_error_map_seq {A} (f : nat -> A) n k : (k < n)%nat -> idx (map f (seq 0 n)) k = Ok (f k).
Proof.
  intros H. unfold idx. rewrite nth_error_map, (nth_error_nth' _ O) by (rewrite seq_length; assumption).
  rewrite seq_nth by assumption. reflexivity.
Qed.

Lemma nth_repeat' {A} (x d : A) n i : (i < n)%nat -> nth i (repeat x n) d = x.
Proof. revert i. induction n as [|n IH]; intros i H; [lia|]. destruct i; [reflexivity|]. cbn. apply IH. lia. Qed.

Lemma nth_app1 {A} (l l' : list A) i d : (i < length l)%nat -> nth i (l ++ l') d = nth i l d.
Proof. apply app_nth1. Qed.

Lemma dig_int_ok Q alpha levelQ i rows : okbase Q -> (0 < alpha <= 32)%nat -> (levelQ < length Q)%nat -> (i * alpha <= levelQ)%nat ->
  (levelQ < length rows)%nat -> (forall j, (j <= levelQ)%nat -> 0 <= nth j rows 0 <= nth j Q 0) ->
  (forall k, (k < blk_len alpha levelQ i)%nat -> eqz (nth (i * alpha + k) Q 0) (dig_int Q alpha levelQ i rows) (nth (i * alpha + k) rows 0)) /\
  - prodl (blk alpha levelQ i Q) < 2 ^ 40 * dig_int Q alpha levelQ i rows < (2 ^ 40 + 1) * prodl (blk alpha levelQ i Q).
Proof.
  intros OKB HA HQ Hi LR RB. pose proof OKB as [ND F].
  assert (KQ : forall j, (j <= levelQ)%nat -> okq (nth j Q 0)).
  { intros j Hj. apply (proj1 (Forall_forall _ _) F). apply nth_In. lia. }
  assert (BL : (0 < blk_len alpha levelQ i)%nat) by (unfold blk_len; lia).
  assert (BB : (blk_len alpha levelQ i + i * alpha <= S levelQ)%nat) by (unfold blk_len; lia).
  unfold dig_int. destruct (Nat.eqb_spec (blk_len alpha levelQ i) 1) as [E|E].
  - split.
    + intros k Hk. replace k with O by lia. rewrite Nat.add_0_r. reflexivity.
    + unfold blk. rewrite E.
      assert (SK : skipn (i * alpha) Q = nth (i * alpha) Q 0 :: skipn (S (i * alpha)) Q).
      { clear -HQ Hi. revert HQ. assert (H : (i * alpha < length Q)%nat -> skipn (i * alpha) Q = nth (i * alpha) Q 0 :: skipn (S (i * alpha)) Q).
        { generalize (i * alpha)%nat as n. induction Q as [|q Q IH]; intros n Hn; cbn in Hn; [lia|].
          destruct n as [|n]; [reflexivity|]. cbn [skipn nth]. rewrite IH at 1 by lia. reflexivity. }
        intros; apply H; lia. }
      rewrite SK. cbn [firstn prodl]. rewrite Z.mul_1_r.
      specialize (RB _ Hi). destruct (KQ _ Hi) as [_ B]. lia.
  - destruct (modup_int_ok (blk alpha levelQ i Q) (blk alpha levelQ i rows)) as [M1 M2].
    + unfold blk. apply okbase_firstn, okbase_skipn. assumption.
    + rewrite blk_length by assumption. unfold blk_len. lia.
    + rewrite !blk_length by lia. reflexivity.
    + apply Forall_forall. intros x Hx. apply (In_nth _ _ 0) in Hx. destruct Hx as (k & Hk & <-).
      rewrite blk_length in Hk by assumption. rewrite blk_nth by assumption.
      assert (J : (i * alpha + k <= levelQ)%nat) by lia.
      specialize (RB _ J). pose proof (okq_lt _ (KQ _ J)). lia.
    + split; [|assumption]. intros k Hk. rewrite blk_length in M1 by assumption. specialize (M1 k Hk). rewrite !blk_nth in M1 by assumption. exact M1.
Qed.

(** all residues of one digit *)
Theorem DecomposeAndSplit_words Q P gamma alpha levelQ i rows :
  okbase (Q ++ P) -> (0 < alpha <= 32)%nat -> (0 < gamma)%nat -> (gamma * alpha <= length P)%nat -> ((gamma * alpha)%nat = length P \/ alpha = 1%nat) ->
  Z.of_nat (length Q) < 2 ^ 52 -> Z.of_nat (length P) < 2 ^ 52 ->
  (levelQ < length Q)%nat -> (i * alpha <= levelQ)%nat -> (levelQ < length rows)%nat ->
  (forall j, (j <= levelQ)%nat -> 0 <= nth j rows 0 < W) ->
  exists outQ outP,
    DecomposeAndSplit (NewDecomposer Q P gamma) Q P levelQ (length P - 1) alpha i gamma rows = Ok (outQ, outP) /\
    length outQ = S levelQ /\ length outP = length P /\
    (forall j, (j <= levelQ)%nat -> 0 <= nth j outQ 0 < W /\ eqz (nth j Q 0) (nth j outQ 0) (dig_int Q alpha levelQ i rows)) /\
    (forall j, (j < length P)%nat -> 0 <= nth j outP 0 < W /\ eqz (nth j P 0) (nth j outP 0) (dig_int Q alpha levelQ i rows)).
Proof.
  intros OKB HA HG GL GA' BQ BP HQ Hi LR RB. pose proof OKB as [ND FO]. pose proof FO as FO'. apply Forall_app in FO. destruct FO as [FQ FP].
  assert (OKQ : okbase Q) by (split; [apply NoDup_app_remove_r in ND; assumption|assumption]).
  assert (LP0 : (0 < length P)%nat) by nia.
  assert (KQ : forall j, (j <= levelQ)%nat -> okq (nth j Q 0)).
  { intros j Hj. apply (proj1 (Forall_forall _ _) FQ). apply nth_In. lia. }
  assert (BL : (0 < blk_len alpha levelQ i)%nat) by (unfold blk_len; lia).
  assert (BB : (blk_len alpha levelQ i + i * alpha <= S levelQ)%nat) by (unfold blk_len; lia).
  unfold DecomposeAndSplit. rewrite decomp_lvl_blk by lia. unfold dig_int.
  destruct (Nat.eqb_spec (blk_len alpha levelQ i) 1) as [E|E].
  - rewrite E. change (Z.of_nat 1 - 2 =? -1) with true. cbv iota.
    rewrite (idx_nth rows _ 0) by lia. cbn [rbind].
    assert (RB0 := RB _ Hi).
    do 2 eexists. split; [reflexivity|]. rewrite !repeat_length. split; [reflexivity|]. split; [lia|]. split.
    + intros j Hj. rewrite nth_repeat' by lia. split; [lia|reflexivity].
    + intros j Hj. rewrite nth_repeat' by lia. split; [lia|reflexivity].
  - destruct (Z.eqb_spec (Z.of_nat (blk_len alpha levelQ i) - 2) (-1)) as [C|C]; [lia|].
    set (k := blk_len alpha levelQ i) in *.
    assert (K2 : (2 <= k <= alpha)%nat) by (unfold k, blk_len in *; lia).
    assert (GA : (gamma * alpha = length P)%nat) by (destruct GA' as [GA|GA]; [exact GA|exfalso; lia]).
    unfold NewDecomposer. rewrite nth_error_map_seq by nia. cbn [rbind].
    replace (gamma * alpha - 2 + 2)%nat with (length P) by nia. rewrite firstn_all.
    unfold decomposer_level.
    rewrite (ceil_nat (length P) gamma HG BP) by nia.
    replace ((length P + gamma - 1) / gamma)%nat with alpha.
    2:{ apply (Nat.div_unique _ _ alpha (gamma - 1)); nia. }
    rewrite ceil_nat by lia. set (beta := ((length Q + alpha - 1) / alpha)%nat).
    assert (IB : (i < beta)%nat).
    { unfold beta. assert ((i * alpha + alpha <= length Q + alpha - 1)%nat) by lia.
      apply Nat.div_le_lower_bound with (b := alpha) (q := S i) in H || idtac.
      apply (Nat.div_le_lower_bound (length Q + alpha - 1) alpha (S i)); nia. }
    rewrite nth_error_map_seq by assumption. cbn [rbind]. unfold decomposer_row.
    assert (DM := Nat.div_mod (length Q) alpha ltac:(lia)).
    assert (MB := Nat.mod_upper_bound (length Q) alpha ltac:(lia)).
    set (xa := if (negb (length Q mod alpha =? 0)%nat && (i =? beta - 1)%nat)%bool then (length Q mod alpha)%nat else alpha).
    assert (XA : (k <= xa)%nat).
    { unfold xa. destruct (Nat.eqb_spec (length Q mod alpha) 0) as [Z0|Z0]; cbn [negb andb]; [lia|].
      destruct (Nat.eqb_spec i (beta - 1)) as [Eb|Eb]; [|lia].
      assert (BE : beta = S (length Q / alpha)).
      { unfold beta. symmetry. apply (Nat.div_unique _ _ _ (length Q mod alpha - 1)); nia. }
      assert (i = (length Q / alpha)%nat) by lia. unfold k, blk_len. nia. }
    rewrite nth_error_map_seq by lia. cbn [rbind].
    replace (Z.to_nat (Z.of_nat k - 2) + 2)%nat with k by lia.
    change (firstn k (skipn (i * alpha) Q)) with (blk alpha levelQ i Q).
    change (firstn k (skipn (i * alpha) rows)) with (blk alpha levelQ i rows).
    assert (L1 : length (blk alpha levelQ i Q) = k) by (apply blk_length; assumption).
    assert (L2 : length (blk alpha levelQ i rows) = k) by (apply blk_length; assumption).
    unfold reconstructRNS. rewrite L2. destruct (Nat.ltb_spec 32 k); [lia|]. cbn [rbind].
    set (Qb := blk alpha levelQ i Q) in *. set (rb := blk alpha levelQ i rows) in *.
    set (params := basisextenderparameters Qb (Q ++ P)).
    set (y := recon_y rb Qb (qoverqiinvqi params)). set (v := f_quot (combine y Qb)).
    assert (OKb : okbase Qb) by (unfold Qb, blk; apply okbase_firstn, okbase_skipn; assumption).
    assert (Fr : Forall (fun x => 0 <= x < W) rb).
    { apply Forall_forall. intros x Hx. apply (In_nth _ _ 0) in Hx. destruct Hx as (n & Hn & <-).
      unfold rb. rewrite blk_nth by (fold k; lia).
      assert (J : (i * alpha + n <= levelQ)%nat) by lia.
      exact (RB _ J). }
    assert (MS : forall j, (j < length (Q ++ P))%nat -> exists r,
      (vt <- idx (vtimesqmodp params) j ;; qo <- idx (qoverqimodp params) j ;; multSum y v (nth j (Q ++ P) 0) vt qo) = Ok r /\
      (0 <= r < W /\ eqz (nth j (Q ++ P) 0) r (modup_int Qb rb))).
    { intros j Hj. destruct (multsum_modup Qb (Q ++ P) rb j OKb FO') as (r & E1 & E2 & E3); try lia; try assumption.
      exists r. split; [exact E1|]. split; [|assumption].
      assert (Kj : okq (nth j (Q ++ P) 0)) by (apply (proj1 (Forall_forall _ _) FO'); apply nth_In; assumption).
      destruct Kj as [_ Kj]. unfold W. lia. }
    destruct (rmapM_ok (fun j => vt <- idx (vtimesqmodp params) j ;; qo <- idx (qoverqimodp params) j ;; multSum y v (nth j Q 0) vt qo)
        (seq 0 (S levelQ)) (fun j r => 0 <= r < W /\ eqz (nth j Q 0) r (modup_int Qb rb))) as (outQ & EQ & RQ).
    { intros j Hj. apply in_seq in Hj. specialize (MS j). rewrite app_length, app_nth1 in MS by lia. apply MS. lia. }
    destruct (rmapM_ok (fun j => vt <- idx (vtimesqmodp params) (length Q + j) ;; qo <- idx (qoverqimodp params) (length Q + j) ;; multSum y v (nth j P 0) vt qo)
        (seq 0 (S (length P - 1))) (fun j r => 0 <= r < W /\ eqz (nth j P 0) r (modup_int Qb rb))) as (outP & EP & RP).
    { intros j Hj. apply in_seq in Hj. specialize (MS (length Q + j)%nat). rewrite app_length, app_nth2 in MS by lia.
      replace (length Q + j - length Q)%nat with j in MS by lia. apply MS. lia. }
    exists outQ, outP. rewrite EQ. cbn [rbind]. rewrite EP. cbn [rbind].
    pose proof (Forall2_len _ _ _ RQ) as LQ'. pose proof (Forall2_len _ _ _ RP) as LP'. rewrite seq_length in LQ', LP'.
    split; [reflexivity|]. split; [lia|]. split; [lia|]. split; intros j Hj.
    + pose proof (Forall2_nth _ _ _ j O 0 RQ) as FN. rewrite seq_length, seq_nth in FN by lia. apply FN. lia.
    + pose proof (Forall2_nth _ _ _ j O 0 RP) as FN. rewrite seq_length, seq_nth in FN by lia. apply FN. lia.
Qed.

Theorem DecomposeAndSplit_ok Q P gamma alpha levelQ i rows :
  okbase (Q ++ P) -> (0 < alpha <= 32)%nat -> (0 < gamma)%nat -> (gamma * alpha <= length P)%nat -> ((gamma * alpha)%nat = length P \/ alpha = 1%nat) ->
  Z.of_nat (length Q) < 2 ^ 52 -> Z.of_nat (length P) < 2 ^ 52 ->
  (levelQ < length Q)%nat -> (i * alpha <= levelQ)%nat -> (levelQ < length rows)%nat ->
  (forall j, (j <= levelQ)%nat -> 0 <= nth j rows 0 <= nth j Q 0) ->
  exists outQ outP,
    DecomposeAndSplit (NewDecomposer Q P gamma) Q P levelQ (length P - 1) alpha i gamma rows = Ok (outQ, outP) /\
    length outQ = S levelQ /\ length outP = length P /\
    (forall j, (j <= levelQ)%nat -> 0 <= nth j outQ 0 < W /\ eqz (nth j Q 0) (nth j outQ 0) (dig_int Q alpha levelQ i rows)) /\
    (forall j, (j < length P)%nat -> 0 <= nth j outP 0 < W /\ eqz (nth j P 0) (nth j outP 0) (dig_int Q alpha levelQ i rows)).
Proof.
  intros OKB HA HG GL GA BQ BP HQ Hi LR RB. apply DecomposeAndSplit_words; trivial.
  intros j Hj. specialize (RB j Hj). pose proof OKB as [_ FO]. apply Forall_app in FO. destruct FO as [FQ _].
  assert (K : okq (nth j Q 0)) by (apply (proj1 (Forall_forall _ _) FQ); apply nth_In; lia). apply okq_lt in K. lia.
Qed.

(** rows that are not reduced: below 6q, as the fast base conversion leaves them *)
Lemma dig_int_6 Q alpha levelQ i rows : okbase Q -> (0 < alpha <= 32)%nat -> (levelQ < length Q)%nat -> (i * alpha <= levelQ)%nat ->
  (levelQ < length rows)%nat -> (forall j, (j <= levelQ)%nat -> 0 <= nth j rows 0 < 6 * nth j Q 0) ->
  (forall k, (k < blk_len alpha levelQ i)%nat -> eqz (nth (i * alpha + k) Q 0) (dig_int Q alpha levelQ i rows) (nth (i * alpha + k) rows 0)) /\
  - (6 * prodl (blk alpha levelQ i Q)) < 2 ^ 40 * dig_int Q alpha levelQ i rows < (2 ^ 40 + 1) * (6 * prodl (blk alpha levelQ i Q)).
Proof.
  intros OKB HA HQ Hi LR RB. pose proof OKB as [ND F].
  assert (KQ : forall j, (j <= levelQ)%nat -> okq (nth j Q 0)).
  { intros j Hj. apply (proj1 (Forall_forall _ _) F). apply nth_In. lia. }
  assert (BL : (0 < blk_len alpha levelQ i)%nat) by (unfold blk_len; lia).
  assert (BB : (blk_len alpha levelQ i + i * alpha <= S levelQ)%nat) by (unfold blk_len; lia).
  unfold dig_int. destruct (Nat.eqb_spec (blk_len alpha levelQ i) 1) as [E|E].
  - split.
    + intros k Hk. replace k with O by lia. rewrite Nat.add_0_r. reflexivity.
    + assert (PB : prodl (blk alpha levelQ i Q) = nth (i * alpha) Q 0).
      { pose proof (blk_length alpha levelQ i Q HQ) as LB. rewrite E in LB. pose proof (blk_nth alpha levelQ i Q 0 ltac:(lia)) as NB. rewrite Nat.add_0_r in NB.
        destruct (blk alpha levelQ i Q) as [|z [|z' l]]; cbn in LB; try discriminate. cbn in NB |- *. lia. }
      rewrite PB. specialize (RB _ Hi). destruct (KQ _ Hi) as [_ B]. lia.
  - destruct (modup_int_ok (blk alpha levelQ i Q) (blk alpha levelQ i rows)) as [M1 M2].
    + unfold blk. apply okbase_firstn, okbase_skipn. assumption.
    + rewrite blk_length by assumption. unfold blk_len. lia.
    + rewrite !blk_length by lia. reflexivity.
    + apply Forall_forall. intros x Hx. apply (In_nth _ _ 0) in Hx. destruct Hx as (k & Hk & <-).
      rewrite blk_length in Hk by assumption. rewrite blk_nth by assumption.
      assert (J : (i * alpha + k <= levelQ)%nat) by lia.
      specialize (RB _ J). destruct (KQ _ J) as [_ KJ]. unfold W. lia.
    + split; [|lia]. intros k Hk. rewrite blk_length in M1 by assumption. specialize (M1 k Hk). rewrite !blk_nth in M1 by assumption. exact M1.
Qed.

(** C05: blocks partition the moduli 0..level *)
Definition beta_of (levelQ alpha : nat) : nat := Z.to_nat (f_ceil_div (Z.of_nat (levelQ + 1)) (Z.of_nat alpha)).

Theorem beta_exact levelQ alpha : (0 < alpha)%nat -> Z.of_nat levelQ + 1 < 2 ^ 52 -> Z.of_nat alpha < 2 ^ 52 ->
  beta_of levelQ alpha = ((levelQ + 1 + alpha - 1) / alpha)%nat /\
  (alpha * (beta_of levelQ alpha - 1) < levelQ + 1 <= alpha * beta_of levelQ alpha)%nat.
Proof.
  intros HA B1 B2. unfold beta_of. rewrite ceil_nat by lia. split; [reflexivity|].
  pose proof (Nat.div_mod (levelQ + 1 + alpha - 1) alpha ltac:(lia)) as D.
  pose proof (Nat.mod_upper_bound (levelQ + 1 + alpha - 1) alpha ltac:(lia)) as M.
  set (b := ((levelQ + 1 + alpha - 1) / alpha)%nat) in *. set (r := ((levelQ + 1 + alpha - 1) mod alpha)%nat) in *.
  assert ((1 <= b)%nat) by (destruct b; nia). destruct b as [|b]; [lia|]. cbn [Nat.sub]. rewrite Nat.sub_0_r. nia.
Qed.

Theorem blocks_partition levelQ alpha j : (0 < alpha)%nat -> Z.of_nat levelQ + 1 < 2 ^ 52 -> Z.of_nat alpha < 2 ^ 52 -> (j <= levelQ)%nat ->
  exists! i, (i < beta_of levelQ alpha)%nat /\ (i * alpha <= j < i * alpha + blk_len alpha levelQ i)%nat.
Proof.
  intros HA B1 B2 Hj. destruct (beta_exact levelQ alpha HA B1 B2) as [_ BE].
  pose proof (Nat.div_mod j alpha ltac:(lia)) as D. pose proof (Nat.mod_upper_bound j alpha ltac:(lia)) as M.
  exists (j / alpha)%nat. split.
  - split; [|unfold blk_len; nia]. apply Nat.div_lt_upper_bound; nia.
  - intros i [_ H]. unfold blk_len in H. symmetry. apply (Nat.div_unique j alpha i (j - i * alpha)); lia.
Qed.
