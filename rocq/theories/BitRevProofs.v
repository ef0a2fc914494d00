From Verif Require Import Base BitRev.

Local Ltac dm := pose proof Nat.div_mod_eq.

(** The value the counter j holds after x increments when the topmost weight is w and there are k weights. *)
Fixpoint jr (w k x : nat) : nat :=
  match k with
  | O => 0
  | S k' => (x mod 2) * w + jr (w / 2) k' (x / 2)
  end.

Definition rng (w k : nat) : Prop := match k with O => w = 0 | S k' => 2 ^ k' <= w < 2 ^ k end.

Lemma rng_half w k : rng w (S k) -> rng (w / 2) k.
Proof.
  unfold rng. destruct k as [|k].
  - cbn [Nat.pow]. intros H. assert (w = 1) by lia. subst. reflexivity.
  - intros [H1 H2]. split.
    + apply Nat.div_le_lower_bound; [lia|]. rewrite <- Nat.pow_succ_r'. exact H1.
    + apply Nat.div_lt_upper_bound; [lia|]. rewrite <- Nat.pow_succ_r'. exact H2.
Qed.

(** lower weights sum below the upper one *)
Lemma jr_lt w k x : rng w k -> jr (w) k x < 2 * w \/ (k = 0 /\ jr w k x = 0).
Proof.
  revert w x; induction k as [|k IH]; intros w x H; [right; auto|left].
  cbn [jr]. assert (W : 1 <= w). { unfold rng in H. pose proof (Nat.pow_nonzero 2 k). lia. }
  assert (x mod 2 < 2) by (apply Nat.mod_upper_bound; lia).
  destruct (IH (w/2) (x/2) (rng_half _ _ H)) as [L|[E L]].
  - assert (2 * (w / 2) <= w) by (apply Nat.mul_div_le; lia).
    assert (x mod 2 = 0 \/ x mod 2 = 1) as [-> | ->] by lia; lia.
  - rewrite L. assert (x mod 2 = 0 \/ x mod 2 = 1) as [-> | ->] by lia; lia.
Qed.

Lemma jr_low w k x : rng w (S k) -> jr (w / 2) k x < w.
Proof.
  intros H. assert (W : 1 <= w). { unfold rng in H. pose proof (Nat.pow_nonzero 2 k). lia. }
  destruct (jr_lt (w/2) k x (rng_half _ _ H)) as [L|[_ L]]; [|lia].
  assert (2 * (w / 2) <= w) by (apply Nat.mul_div_le; lia). lia.
Qed.

Lemma inner_step k : forall w x fuel, rng w (S k) -> x + 1 < 2 ^ (S k) -> k + 1 <= fuel ->
  exists j b, br_inner fuel (jr w (S k) x) w = Some (j, b) /\ j + b = jr w (S k) (x + 1).
Proof.
  induction k as [|k IH]; intros w x fuel H Hx Hf; (destruct fuel as [|fuel]; [lia|]).
  - cbn [Nat.pow] in Hx. assert (x = 0) by lia. subst x. unfold rng in H. cbn in H.
    assert (w = 1) by lia. subst. cbn. exists 0, 1. split; reflexivity.
  - cbn [br_inner]. destruct (w <=? jr w (S (S k)) x) eqn:C.
    + apply Nat.leb_le in C. cbn [jr] in C |- *.
      pose proof (jr_low w (S k) (x/2) H) as L. cbn [jr] in L.
      assert (M : x mod 2 = 1).
      { assert (x mod 2 < 2) by (apply Nat.mod_upper_bound; lia).
        assert (x mod 2 = 0 \/ x mod 2 = 1) as [E|E] by lia; [|assumption]. rewrite E in C. lia. }
      rewrite M.
      replace (1 * w + (x / 2 mod 2 * (w / 2) + jr (w / 2 / 2) k (x / 2 / 2)) - w)
        with (jr (w/2) (S k) (x/2)) by (cbn [jr]; lia).
      destruct (IH (w/2) (x/2) fuel) as (j & b & E & S).
      * apply rng_half; assumption.
      * rewrite Nat.pow_succ_r' in Hx. dm. specialize (H0 x 2). lia.
      * lia.
      * exists j, b. split; [exact E|]. rewrite S. cbn [jr].
        assert (E1 : (x + 1) mod 2 = 0 /\ (x + 1) / 2 = x / 2 + 1).
        { pose proof (Nat.div_mod_eq x 2). pose proof (Nat.div_mod_eq (x+1) 2).
          pose proof (Nat.mod_upper_bound (x+1) 2). lia. }
        destruct E1 as [-> ->]. lia.
    + apply Nat.leb_gt in C. cbn [jr] in C.
      assert (M : x mod 2 = 0).
      { assert (x mod 2 < 2) by (apply Nat.mod_upper_bound; lia).
        assert (x mod 2 = 0 \/ x mod 2 = 1) as [E|E] by lia; [assumption|]. rewrite E in C. lia. }
      exists (jr w (S (S k)) x), w. split; [reflexivity|]. cbn [jr].
      assert (E1 : (x + 1) mod 2 = 1 /\ (x + 1) / 2 = x / 2).
      { pose proof (Nat.div_mod_eq x 2). pose proof (Nat.div_mod_eq (x+1) 2).
        pose proof (Nat.mod_upper_bound (x+1) 2). lia. }
      destruct E1 as [-> ->]. rewrite M. lia.
Qed.

(** with all weights set the inner loop never ends *)
Lemma inner_zero fuel : br_inner fuel 0 0 = None.
Proof. induction fuel; cbn; auto. Qed.

Lemma inner_stuck k : forall w x fuel, rng w k -> x + 1 = 2 ^ k -> br_inner fuel (jr w k x) w = None.
Proof.
  induction k as [|k IH]; intros w x fuel H Hx.
  - cbn in *. subst w. apply inner_zero.
  - destruct fuel as [|fuel]; [reflexivity|]. cbn [br_inner].
    rewrite Nat.pow_succ_r' in Hx.
    assert (E1 : x mod 2 = 1 /\ x / 2 + 1 = 2 ^ k).
    { pose proof (Nat.div_mod_eq x 2). pose proof (Nat.mod_upper_bound x 2). lia. }
    destruct E1 as [M X]. cbn [jr]. rewrite M.
    replace (w <=? 1 * w + jr (w / 2) k (x / 2)) with true by (symmetry; apply Nat.leb_le; lia).
    replace (1 * w + jr (w / 2) k (x / 2) - w) with (jr (w/2) k (x/2)) by lia.
    apply IH; [apply rng_half; assumption|assumption].
Qed.

(** *** the true bit reversal *)
Definition rv (k x : nat) := jr (2 ^ (k - 1)) k x.

Lemma rv_S k x : rv (S k) x = (x mod 2) * 2 ^ k + rv k (x / 2).
Proof.
  unfold rv. replace (S k - 1) with k by lia. cbn [jr]. f_equal. destruct k as [|k]; [reflexivity|].
  f_equal. rewrite Nat.pow_succ_r', Nat.mul_comm, Nat.div_mul by lia. f_equal. lia.
Qed.

Lemma rv_lt k x : rv k x < 2 ^ k.
Proof.
  revert x; induction k as [|k IH]; intros x; [cbn; lia|].
  rewrite rv_S, Nat.pow_succ_r'. specialize (IH (x/2)).
  assert (x mod 2 < 2) by (apply Nat.mod_upper_bound; lia).
  assert (x mod 2 = 0 \/ x mod 2 = 1) as [-> | ->] by lia; lia.
Qed.

Lemma testbit_add_high a b k t : b < 2 ^ k -> a < 2 -> Nat.testbit (a * 2 ^ k + b) t =
  if t =? k then Nat.testbit a 0 else if t <? k then Nat.testbit b t else false.
Proof.
  intros Hb Ha.
  assert (P : 2 ^ k <> 0) by (apply Nat.pow_nonzero; lia).
  rewrite !Nat.testbit_odd, !Nat.shiftr_div_pow2.
  destruct (t =? k) eqn:E1; [|destruct (t <? k) eqn:E2].
  - apply Nat.eqb_eq in E1. subst t. rewrite Nat.div_add_l, (Nat.div_small b) by lia.
    rewrite Nat.add_0_r. change (2 ^ 0) with 1. rewrite Nat.div_1_r. reflexivity.
  - apply Nat.ltb_lt in E2. replace k with (t + (k - t)) at 1 by lia.
    rewrite Nat.pow_add_r.
    replace (a * (2 ^ t * 2 ^ (k - t)) + b) with (b + (a * 2 ^ (k - t)) * 2 ^ t) by lia.
    rewrite Nat.div_add by (apply Nat.pow_nonzero; lia).
    rewrite Nat.odd_add. replace (k - t) with (S (k - t - 1)) by lia.
    rewrite Nat.pow_succ_r'.
    replace (a * (2 * 2 ^ (k - t - 1))) with (2 * (a * 2 ^ (k - t - 1))) by lia.
    rewrite Nat.odd_mul. cbn [Nat.odd Nat.even negb andb xorb]. destruct (Nat.odd (b / 2^t)); reflexivity.
  - apply Nat.eqb_neq in E1. apply Nat.ltb_ge in E2.
    rewrite Nat.div_small; [reflexivity|].
    apply Nat.lt_le_trans with (2 ^ (S k)).
    + rewrite Nat.pow_succ_r'. assert (a = 0 \/ a = 1) as [-> | ->] by lia; lia.
    + apply Nat.pow_le_mono_r; lia.
Qed.

Lemma rv_bits k x : forall t, t < k -> Nat.testbit (rv k x) t = Nat.testbit x (k - 1 - t).
Proof.
  revert x; induction k as [|k IH]; intros x t Ht; [lia|].
  rewrite rv_S, testbit_add_high; [|apply rv_lt|apply Nat.mod_upper_bound; lia].
  destruct (t =? k) eqn:E.
  - apply Nat.eqb_eq in E. subst. replace (S k - 1 - k) with 0 by lia.
    rewrite !Nat.bit0_odd. rewrite (Nat.div_mod_eq x 2) at 2. rewrite Nat.odd_add, Nat.odd_mul.
    cbn [Nat.odd Nat.even negb andb]. destruct (Nat.odd (x mod 2)); reflexivity.
  - apply Nat.eqb_neq in E. destruct (t <? k) eqn:E2; [|apply Nat.ltb_ge in E2; lia].
    apply Nat.ltb_lt in E2. rewrite IH by assumption.
    replace (S k - 1 - t) with (S (k - 1 - t)) by lia.
    rewrite !Nat.testbit_odd, !Nat.shiftr_div_pow2, Nat.pow_succ_r', Nat.div_div; [reflexivity|lia|].
    apply Nat.pow_nonzero; lia.
Qed.

Lemma bits_eq k a b : a < 2 ^ k -> b < 2 ^ k -> (forall t, t < k -> Nat.testbit a t = Nat.testbit b t) -> a = b.
Proof.
  intros Ha Hb H. apply Nat.bits_inj. intros t. destruct (Nat.lt_ge_cases t k) as [L|L]; [auto|].
  rewrite !Nat.testbit_odd, !Nat.shiftr_div_pow2.
  assert (2 ^ k <= 2 ^ t) by (apply Nat.pow_le_mono_r; lia).
  rewrite !Nat.div_small by lia. reflexivity.
Qed.

Lemma rv_spec k i r : reversed_bits k i r <-> i < 2 ^ k /\ r = rv k i.
Proof.
  unfold reversed_bits. split.
  - intros (Hi & Hr & H). split; [assumption|]. apply (bits_eq k); [assumption|apply rv_lt|].
    intros t Ht. rewrite H, rv_bits by assumption. reflexivity.
  - intros [Hi ->]. split; [assumption|split; [apply rv_lt|apply rv_bits]].
Qed.

Lemma rv_rv k x : x < 2 ^ k -> rv k (rv k x) = x.
Proof.
  intros H. apply (bits_eq k); [apply rv_lt|assumption|]. intros t Ht.
  rewrite rv_bits, rv_bits by lia. f_equal. lia.
Qed.

Lemma rv_0 k : rv k 0 = 0.
Proof.
  induction k as [|k IH]; [reflexivity|]. rewrite rv_S.
  rewrite Nat.mod_0_l, Nat.div_0_l, IH by lia. lia.
Qed.

Section Lists.
  Context {A : Type}.
  Lemma lset_length (l : list A) i x : length (lset l i x) = length l.
  Proof. revert i; induction l; intros [|i]; cbn; auto. Qed.
  Lemma nth_lset (l : list A) i x p : nth_error (lset l i x) p =
    if (p =? i) && (i <? length l) then Some x else nth_error l p.
  Proof.
    revert i p; induction l as [|y l IH]; intros [|i] [|p]; cbn; try reflexivity.
    - rewrite Bool.andb_false_r. reflexivity.
    - rewrite IH. cbn. reflexivity.
  Qed.

  (** processed positions hold the reversed element *)
  Definition inv (k n : nat) (l0 l : list A) : Prop :=
    length l = length l0 /\
    forall p, nth_error l p = if (p <? 2 ^ k) && ((p <=? n) || (rv k p <=? n)) then nth_error l0 (rv k p) else nth_error l0 p.

  Lemma outer_inv k l0 fuel : k + 1 <= fuel -> 2 ^ k <= length l0 -> 1 <= k -> forall n i l,
    i + n = 2 ^ k -> 1 <= i -> inv k (i - 1) l0 l ->
    exists l', br_outer fuel (2 ^ k) n i (rv k (i - 1)) l = Some (Ok l') /\ inv k (2 ^ k - 1) l0 l'.
  Proof.
    intros Hf Hl Hk. induction n as [|n IH]; intros i l Hi Hi1 I.
    - exists l. split; [reflexivity|]. replace (2 ^ k - 1) with (i - 1) by lia. assumption.
    - cbn [br_outer].
      destruct k as [|k]; [lia|].
      assert (W : 2 ^ S k / 2 = 2 ^ k) by (rewrite Nat.pow_succ_r', Nat.mul_comm, Nat.div_mul; lia).
      rewrite W. unfold rv at 1. replace (S k - 1) with k by lia.
      destruct (inner_step k (2 ^ k) (i - 1) fuel) as (j & b & E & S).
      + unfold rng. rewrite Nat.pow_succ_r'. pose proof (Nat.pow_nonzero 2 k). lia.
      + lia.
      + lia.
      + rewrite E. cbn iota zeta.
        assert (R : j + b = rv (Datatypes.S k) i).
        { rewrite S. unfold rv. f_equal; [f_equal; lia|lia]. }
        rewrite R. clear S R E j b. pose proof (rv_lt (Datatypes.S k) i) as Lr.
        set (K := Datatypes.S k) in *.
        assert (RR := rv_rv K i ltac:(lia)).
        destruct I as [I1 I2].
        assert (STEP : exists l', (if i <? rv K i then swap l i (rv K i) else Ok l) = Ok l' /\ inv K i l0 l').
        { destruct (i <? rv K i) eqn:C.
          - apply Nat.ltb_lt in C. unfold swap.
            destruct (nth_error l i) as [x|] eqn:Ex; [|apply nth_error_None in Ex; lia].
            destruct (nth_error l (rv K i)) as [y|] eqn:Ey; [|apply nth_error_None in Ey; lia].
            eexists; split; [reflexivity|]. split; [rewrite !lset_length; assumption|].
            rewrite I2 in Ex, Ey. rewrite RR in Ey.
            replace (i <=? i - 1) with false in * by (symmetry; apply Nat.leb_gt; lia).
            replace (rv K i <=? i - 1) with false in * by (symmetry; apply Nat.leb_gt; lia).
            rewrite Bool.andb_false_r in Ex, Ey.
            intros p. rewrite !nth_lset, lset_length.
            destruct (p =? rv K i) eqn:E1.
            + apply Nat.eqb_eq in E1. subst p. replace (rv K i <? length l) with true by (symmetry; apply Nat.ltb_lt; lia).
              cbn [andb]. rewrite RR. replace (rv K i <? 2 ^ K) with true by (symmetry; apply Nat.ltb_lt; lia).
              rewrite Nat.leb_refl, Bool.orb_true_r. cbn [andb]. congruence.
            + cbn [andb]. destruct (p =? i) eqn:E2.
              * apply Nat.eqb_eq in E2. subst p. replace (i <? length l) with true by (symmetry; apply Nat.ltb_lt; lia).
                cbn [andb]. replace (i <? 2 ^ K) with true by (symmetry; apply Nat.ltb_lt; lia).
                rewrite Nat.leb_refl. cbn [andb orb]. congruence.
              * cbn [andb]. rewrite I2. apply Nat.eqb_neq in E1, E2.
                destruct (p <? 2 ^ K) eqn:E3; [|reflexivity]. apply Nat.ltb_lt in E3. cbn [andb].
                assert (rv K p <> i). { intros X. apply E1. rewrite <- X, rv_rv by lia. reflexivity. }
                replace (p <=? i) with (p <=? i - 1) by (destruct (Nat.leb_spec p i); destruct (Nat.leb_spec p (i-1)); lia).
                replace (rv K p <=? i) with (rv K p <=? i - 1)
                  by (destruct (Nat.leb_spec (rv K p) i); destruct (Nat.leb_spec (rv K p) (i-1)); lia).
                reflexivity.
          - apply Nat.ltb_ge in C. exists l. split; [reflexivity|]. split; [assumption|].
            intros p. rewrite I2. destruct (p <? 2 ^ K) eqn:E3; [|reflexivity]. apply Nat.ltb_lt in E3. cbn [andb].
            destruct (Nat.eq_dec p i) as [->|Np].
            + rewrite Nat.leb_refl. cbn [orb]. 
              destruct (Nat.eq_dec (rv K i) i) as [Q|Q].
              * rewrite Q. destruct (_ || _); reflexivity.
              * replace (rv K i <=? i - 1) with true by (symmetry; apply Nat.leb_le; lia).
                rewrite Bool.orb_true_r. reflexivity.
            + destruct (Nat.eq_dec (rv K p) i) as [Q|Q].
              * assert (p = rv K i) by (rewrite <- Q, rv_rv by lia; reflexivity).
                replace (p <=? i - 1) with true by (symmetry; apply Nat.leb_le; lia).
                replace (p <=? i) with true by (symmetry; apply Nat.leb_le; lia). reflexivity.
              * replace (p <=? i) with (p <=? i - 1) by (destruct (Nat.leb_spec p i); destruct (Nat.leb_spec p (i-1)); lia).
                replace (rv K p <=? i) with (rv K p <=? i - 1)
                  by (destruct (Nat.leb_spec (rv K p) i); destruct (Nat.leb_spec (rv K p) (i-1)); lia).
                reflexivity. }
        destruct STEP as (l' & -> & I'). cbn iota.
        replace (rv K i) with (rv K (Datatypes.S i - 1)) by (f_equal; lia).
        apply IH; [lia|lia|]. replace (Datatypes.S i - 1) with i by lia. assumption.
  Qed.

  (** out[rev i] = in[i], the tail is untouched, no fuel beyond k+1 is ever used *)
  Lemma bit_reverse_ok k fuel (l : list A) : k + 1 <= fuel -> 2 ^ k <= length l ->
    exists l', bit_reverse fuel (2 ^ k) l = Some (Ok l') /\ length l' = length l /\
      (forall i r, reversed_bits k i r -> nth_error l' r = nth_error l i) /\
      (forall p, 2 ^ k <= p -> nth_error l' p = nth_error l p).
  Proof.
    intros Hf Hl. unfold bit_reverse.
    assert (P : exists l', br_outer fuel (2 ^ k) (2 ^ k - 1) 1 0 l = Some (Ok l') /\ inv k (2 ^ k - 1) l l').
    { destruct k as [|k].
      - exists l. split; [reflexivity|]. split; [reflexivity|]. intros p. cbn [Nat.pow].
        destruct (p <? 1) eqn:E; [|reflexivity]. apply Nat.ltb_lt in E. assert (p = 0) by lia. subst. reflexivity.
      - pose proof (Nat.pow_nonzero 2 (S k)).
        replace (br_outer fuel (2 ^ S k) (2 ^ S k - 1) 1 0 l)
          with (br_outer fuel (2 ^ S k) (2 ^ S k - 1) 1 (rv (S k) (1 - 1)) l)
          by (change (1 - 1) with 0; rewrite rv_0; reflexivity).
        apply outer_inv; try lia. split; [reflexivity|].
        intros p. destruct (p <? 2 ^ S k) eqn:E; [|reflexivity]. cbn [andb].
        destruct (p <=? 1 - 1) eqn:E2.
        + apply Nat.leb_le in E2. assert (p = 0) by lia. subst. cbn [orb]. rewrite rv_0. reflexivity.
        + cbn [orb]. destruct (rv (S k) p <=? 1 - 1) eqn:E3; [|reflexivity].
          apply Nat.leb_le in E3. apply Nat.ltb_lt in E.
          assert (rv (S k) p = 0) by lia. pose proof (rv_rv (S k) p E) as Q. rewrite H0, rv_0 in Q. subst p.
          rewrite rv_0. reflexivity. }
    destruct P as (l' & E & I1 & I2). exists l'. split; [assumption|]. split; [assumption|]. split.
    - intros i r H. apply rv_spec in H. destruct H as [Hi ->]. rewrite I2, rv_rv by assumption.
      pose proof (rv_lt k i). replace (rv k i <? 2 ^ k) with true by (symmetry; apply Nat.ltb_lt; lia).
      replace (rv k i <=? 2 ^ k - 1) with true by (symmetry; apply Nat.leb_le; lia). reflexivity.
    - intros p Hp. rewrite I2. replace (p <? 2 ^ k) with false by (symmetry; apply Nat.ltb_ge; lia). reflexivity.
  Qed.

  Lemma nth_error_ext_eq (l1 l2 : list A) : (forall p, nth_error l1 p = nth_error l2 p) -> l1 = l2.
  Proof.
    revert l2; induction l1 as [|x l1 IH]; intros [|y l2] H; trivial.
    - specialize (H 0); discriminate.
    - specialize (H 0); discriminate.
    - f_equal; [specialize (H 0); inversion H; reflexivity|]. apply IH. intros p. apply (H (S p)).
  Qed.

  Lemma bit_reverse_twice k fuel (l l1 : list A) : k + 1 <= fuel -> 2 ^ k <= length l ->
    bit_reverse fuel (2 ^ k) l = Some (Ok l1) -> bit_reverse fuel (2 ^ k) l1 = Some (Ok l).
  Proof.
    intros Hf Hl E.
    destruct (bit_reverse_ok k fuel l Hf Hl) as (l1' & E1 & L1 & S1 & T1).
    rewrite E in E1. inversion E1; subst l1'.
    destruct (bit_reverse_ok k fuel l1 Hf ltac:(lia)) as (l2 & E2 & L2 & S2 & T2).
    rewrite E2. do 2 f_equal. apply nth_error_ext_eq. intros p.
    destruct (Nat.lt_ge_cases p (2 ^ k)) as [Lp|Lp]; [|rewrite T2, T1; trivial].
    rewrite (S2 (rv k p) p), (S1 p (rv k p)); trivial.
    - apply rv_spec. auto.
    - apply rv_spec. split; [apply rv_lt|symmetry; apply rv_rv; assumption].
  Qed.

  (** Any other N >= 2: the loop never ends. *)
  Lemma jr_bound w k x : rng w k -> x < 2 ^ k -> jr w k x <= 2 * w.
  Proof. intros H _. destruct (jr_lt w k x H) as [L|[_ L]]; lia. Qed.

  Lemma outer_stuck k N (l0 : list A) fuel : 2 ^ k < N < 2 ^ (S k) -> N <= length l0 -> 1 <= k ->
    forall n i (l : list A), i + n = N -> 1 <= i <= 2 ^ k -> length l = length l0 ->
    br_outer fuel N n i (jr (N / 2) k (i - 1)) l = None.
  Proof.
    intros HN Hl Hk.
    assert (G : rng (N / 2) k).
    { destruct k as [|k]; [lia|]. unfold rng. split.
      - apply Nat.div_le_lower_bound; [lia|]. rewrite <- Nat.pow_succ_r'. lia.
      - apply Nat.div_lt_upper_bound; [lia|]. rewrite <- Nat.pow_succ_r'. lia. }
    induction n as [|n IH]; intros i l Hi Hi1 L; [lia|]. cbn [br_outer].
    destruct (Nat.eq_dec i (2 ^ k)) as [->|Ne].
    - rewrite inner_stuck; [reflexivity|assumption|]. pose proof (Nat.pow_nonzero 2 k). lia.
    - destruct (Nat.lt_ge_cases fuel (k)) as [Lf|Lf].
      + (* with little fuel: either out of fuel here or the loop goes on *)
        destruct (br_inner fuel (jr (N / 2) k (i - 1)) (N / 2)) as [[j b]|] eqn:E; [|reflexivity].
        destruct k as [|k]; [lia|].
        destruct (inner_step k (N/2) (i - 1) (fuel + k + 1)) as (j' & b' & E' & S'); [assumption|lia|lia|].
        assert (M : forall f f' a c r, br_inner f a c = Some r -> f <= f' -> br_inner f' a c = Some r).
        { induction f as [|f IHf]; intros f' a c r X Y; [discriminate|]. destruct f' as [|f']; [lia|].
          cbn [br_inner] in X |- *. destruct (c <=? a); [apply IHf; [assumption|lia]|assumption]. }
        rewrite (M _ (fuel + k + 1) _ _ _ E ltac:(lia)) in E'. inversion E'; subst j' b'. cbn iota zeta. rewrite S'.
        replace (i - 1 + 1) with (Datatypes.S i - 1) by lia.
        assert (B : jr (N/2) (Datatypes.S k) (Datatypes.S i - 1) < length l).
        { destruct (jr_lt (N/2) (Datatypes.S k) (Datatypes.S i - 1) G) as [?|[? ?]]; [|lia].
          pose proof (Nat.mul_div_le N 2). lia. }
        destruct (i <? _).
        * unfold swap. destruct (nth_error l i) eqn:X; [|apply nth_error_None in X; lia].
          destruct (nth_error l (jr (N/2) (Datatypes.S k) (Datatypes.S i - 1))) eqn:Y; [|apply nth_error_None in Y; lia].
          apply IH; [lia|lia|]. rewrite !lset_length. assumption.
        * apply IH; [lia|lia|assumption].
      + destruct k as [|k]; [lia|].
        destruct (inner_step k (N/2) (i - 1) fuel) as (j' & b' & E' & S'); [assumption|lia|lia|].
        rewrite E'. cbn iota zeta. rewrite S'.
        replace (i - 1 + 1) with (Datatypes.S i - 1) by lia.
        assert (B : jr (N/2) (Datatypes.S k) (Datatypes.S i - 1) < length l).
        { destruct (jr_lt (N/2) (Datatypes.S k) (Datatypes.S i - 1) G) as [?|[? ?]]; [|lia].
          pose proof (Nat.mul_div_le N 2). lia. }
        destruct (i <? _).
        * unfold swap. destruct (nth_error l i) eqn:X; [|apply nth_error_None in X; lia].
          destruct (nth_error l (jr (N/2) (Datatypes.S k) (Datatypes.S i - 1))) eqn:Y; [|apply nth_error_None in Y; lia].
          apply IH; [lia|lia|]. rewrite !lset_length. assumption.
        * apply IH; [lia|lia|assumption].
  Qed.

  Lemma bit_reverse_diverges N (l : list A) fuel :
    2 <= N -> (forall k, N <> 2 ^ k) -> N <= length l -> bit_reverse fuel N l = None.
  Proof.
    intros H2 Hn Hl. unfold bit_reverse.
    pose proof (Nat.log2_spec N ltac:(lia)) as [A1 A2].
    pose proof (Hn (Nat.log2 N)) as A3.
    assert (1 <= Nat.log2 N) by (apply Nat.log2_le_pow2; cbn; lia).
    assert (J0 : forall k w, jr w k (1 - 1) = 0).
    { change (1 - 1) with 0. induction k as [|k IH]; intros w; [reflexivity|].
      cbn [jr]. rewrite Nat.mod_0_l, Nat.div_0_l, IH by lia. lia. }
    replace (br_outer fuel N (N - 1) 1 0 l)
      with (br_outer fuel N (N - 1) 1 (jr (N / 2) (Nat.log2 N) (1 - 1)) l) by (rewrite J0; reflexivity).
    pose proof (Nat.pow_nonzero 2 (Nat.log2 N)).
    apply (outer_stuck (Nat.log2 N) N l); try lia; reflexivity.
  Qed.
End Lists.
