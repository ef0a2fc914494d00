From Verif Require Import Base IdSetModel IdSetSpec.

Definition rep (s : idset) (S : sset) : Prop :=
  mwf s /\ ~ In id0 (keys s) /\ forall x, In x (keys s) <-> S x.

Lemma rep_ext s S T : (forall x, S x <-> T x) -> rep s S -> rep s T.
Proof. intros E (W & Z & H). split; [|split]; trivial. intros x. rewrite H. apply E. Qed.

Lemma length_keys (s : idset) : length (keys s) = length s.
Proof. apply map_length. Qed.

Lemma rep_new : rep is_new (fun _ => False).
Proof. split; [constructor|split; [intros []|cbn; tauto]]. Qed.

Lemma rep_add s S v : rep s S -> v <> id0 -> exists s', is_add s v = Ok s' /\ rep s' (sadd S v).
Proof.
  intros (W & Z & H) N. unfold is_add. destruct (string_dec v id0); [contradiction|].
  eexists; split; [reflexivity|]. split; [apply mwf_mset; assumption|split].
  - rewrite keys_mset. intros [E|E]; [congruence|contradiction].
  - intros x. rewrite keys_mset. unfold sadd. rewrite H. tauto.
Qed.

Lemma rep_remove s S v : rep s S -> rep (is_remove s v) (sdel S v).
Proof.
  intros (W & Z & H). split; [apply mwf_mdel; assumption|split].
  - unfold is_remove. rewrite keys_mdel. tauto.
  - intros x. unfold is_remove, sdel. rewrite keys_mdel, H. tauto.
Qed.

Lemma rep_addall l : forall r S, rep r S -> ~ In id0 l ->
  exists r', rfold (fun r v => is_add r v) l r = Ok r' /\ rep r' (fun x => S x \/ In x l).
Proof.
  induction l as [|v l IH]; intros r S R Z; cbn.
  - exists r. split; [reflexivity|]. eapply rep_ext; [|exact R]. cbn; tauto.
  - destruct (rep_add r S v R) as (r1 & E & R1); [intros ->; apply Z; left; reflexivity|].
    rewrite E. cbn. destruct (IH r1 _ R1) as (r2 & E2 & R2); [intros K; apply Z; right; assumption|].
    exists r2. split; [assumption|]. eapply rep_ext; [|exact R2]. unfold sadd; cbn; intros x; intuition.
Qed.

Lemma rep_addif s l : forall r S, rep r S -> (forall x, In x l -> is_has s x = true -> x <> id0) ->
  exists r', rfold (fun r v => if is_has s v then is_add r v else Ok r) l r = Ok r'
             /\ rep r' (fun x => S x \/ (In x l /\ is_has s x = true)).
Proof.
  induction l as [|v l IH]; intros r S R Z; cbn.
  - exists r. split; [reflexivity|]. eapply rep_ext; [|exact R]. cbn; tauto.
  - destruct (is_has s v) eqn:Hv.
    + destruct (rep_add r S v R) as (r1 & E & R1); [apply Z; [left; reflexivity|assumption]|].
      rewrite E. cbn. destruct (IH r1 _ R1) as (r2 & E2 & R2); [intros; apply Z; [right|]; assumption|].
      exists r2. split; [assumption|]. eapply rep_ext; [|exact R2]. unfold sadd; cbn; intros x.
      intuition (subst; auto).
    + cbn. destruct (IH r _ R) as (r2 & E2 & R2); [intros; apply Z; [right|]; assumption|].
      exists r2. split; [assumption|]. eapply rep_ext; [|exact R2]. cbn; intros x.
      split; [intuition|]. intros [A|[[A|A] B]]; auto. subst. congruence.
Qed.

Section WithOrder.
  Variable ord : order.
  Hypothesis Hord : order_ok ord.

  Lemma In_ord n l x : In x (ord n l) <-> In x l.
  Proof.
    split; apply Permutation_in; [apply Hord|apply Permutation_sym, Hord].
  Qed.

  Lemma rep_copy n s S : rep s S -> exists s', is_copy ord n s = Ok s' /\ rep s' S.
  Proof.
    intros (W & Z & H). unfold is_copy.
    destruct (rep_addall (ord n (keys s)) is_new _ rep_new) as (r & E & R).
    - rewrite In_ord. assumption.
    - exists r. split; [assumption|]. eapply rep_ext; [|exact R]. cbn; intros x. rewrite In_ord, H. tauto.
  Qed.

  Lemma rep_union n s S t T : rep s S -> rep t T ->
    exists s', is_union ord n s t = Ok s' /\ rep s' (fun x => S x \/ T x).
  Proof.
    intros (W & Z & H) (W2 & Z2 & H2). unfold is_union.
    destruct (rep_addall (ord n (keys s)) is_new _ rep_new) as (r & E & R); [rewrite In_ord; assumption|].
    rewrite E. cbn.
    destruct (rep_addall (ord (Datatypes.S n) (keys t)) r _ R) as (r2 & E2 & R2); [rewrite In_ord; assumption|].
    exists r2. split; [assumption|]. eapply rep_ext; [|exact R2]. cbn; intros x. rewrite !In_ord, H, H2. tauto.
  Qed.

  Lemma rep_has s S v : rep s S -> (is_has s v = true <-> S v).
  Proof. intros (W & Z & H). unfold is_has. rewrite mhas_In. apply H. Qed.

  Lemma rep_inter n s S t T : rep s S -> rep t T ->
    exists s', is_inter ord n s t = Ok s' /\ rep s' (fun x => S x /\ T x).
  Proof.
    intros R1 R2. destruct R2 as (W2 & Z2 & H2). unfold is_inter.
    destruct (rep_addif s (ord n (keys t)) is_new _ rep_new) as (r & E & R).
    - intros x Hx _ ->. rewrite In_ord in Hx. contradiction.
    - exists r. split; [assumption|]. eapply rep_ext; [|exact R]. cbn; intros x.
      rewrite In_ord, H2, (rep_has s S x R1). tauto.
  Qed.

  Lemma rep_size s S : rep s S -> card S (is_size s).
  Proof.
    intros (W & Z & H). exists (keys s). split; [exact W|split; [exact H|apply length_keys]].
  Qed.

  Definition hrep (H : isheap) (A : list sset) : Prop := Forall2 rep H A.

  Lemma hrep_get H A h S : hrep H A -> nth_error A h = Some S -> exists s, nth_error H h = Some s /\ rep s S.
  Proof.
    intros R; revert h. induction R as [|s S0 H A R0 R IH]; intros [|h] E; cbn in *; try discriminate.
    - inversion E; subst. eauto.
    - eauto.
  Qed.

  Lemma hrep_lt H A h : hrep H A -> h < length A -> exists s S, nth_error H h = Some s /\ nth_error A h = Some S /\ rep s S.
  Proof.
    intros R L. destruct (nth_error A h) as [S|] eqn:E.
    - destruct (hrep_get _ _ _ _ R E) as (s & E1 & R1). eauto.
    - apply nth_error_None in E. lia.
  Qed.

  Lemma hrep_upd H A h s S : hrep H A -> rep s S -> hrep (upd H h s) (upd A h S).
  Proof.
    intros R R0; revert h. induction R; intros [|h]; cbn; constructor; auto. apply IHR.
  Qed.

  Lemma hrep_snoc H A s S : hrep H A -> rep s S -> hrep (H ++ [s]) (A ++ [S]).
  Proof. intros. apply Forall2_app; auto. Qed.

  Lemma hrep_len H A : hrep H A -> length H = length A.
  Proof. induction 1; cbn; congruence. Qed.

  Lemma upd_length {X} (l : list X) i x : length (upd l i x) = length l.
  Proof. revert i; induction l; intros [|i]; cbn; auto. Qed.

  Lemma isrun_refines ops : forall n H A,
    hrep H A -> legal (length A) ops ->
    exists H' A' outs, isrun ord n H ops = Ok (H', outs) /\ srun A ops A' outs /\ hrep H' A'.
  Proof.
    induction ops as [|o ops IH]; intros n H A R L; cbn [isrun legal] in *.
    { exists H, A, nil. repeat split; trivial. constructor. }
    assert (Hl := hrep_len _ _ R).
    assert (STEP : exists H1 A1 out, isstep ord n H o = Ok (H1, out) /\ sstep A o A1 out /\ hrep H1 A1
                   /\ legal (length A1) ops).
    { destruct o as [|h v|h v|h|a b|a b|h v|h]; cbn [isstep].
      - exists (H ++ [is_new]), (A ++ [fun _ => False]), (Handle (length H)). split; [reflexivity|].
        split; [rewrite Hl; constructor|]. split; [apply hrep_snoc; [assumption|apply rep_new]|].
        rewrite app_length, Nat.add_comm. exact L.
      - destruct L as (Lh & Nv & L). destruct (hrep_lt _ _ _ R Lh) as (s & S & E1 & E2 & R1).
        destruct (rep_add _ _ v R1 Nv) as (s' & E3 & R3).
        exists (upd H h s'), (upd A h (sadd S v)), NoOut. unfold hget. rewrite E1; cbn. rewrite E3; cbn.
        split; [reflexivity|]. split; [constructor; assumption|]. split; [apply hrep_upd; assumption|].
        rewrite upd_length. exact L.
      - destruct L as (Lh & L). destruct (hrep_lt _ _ _ R Lh) as (s & S & E1 & E2 & R1).
        exists (upd H h (is_remove s v)), (upd A h (sdel S v)), NoOut. unfold hget. rewrite E1; cbn.
        split; [reflexivity|]. split; [constructor; assumption|].
        split; [apply hrep_upd; [assumption|apply rep_remove; assumption]|].
        rewrite upd_length. exact L.
      - destruct L as (Lh & L). destruct (hrep_lt _ _ _ R Lh) as (s & S & E1 & E2 & R1).
        destruct (rep_copy n _ _ R1) as (s' & E3 & R3).
        exists (H ++ [s']), (A ++ [S]), (Handle (length H)). unfold hget. rewrite E1; cbn. rewrite E3; cbn.
        split; [reflexivity|]. split; [rewrite Hl; constructor; assumption|].
        split; [apply hrep_snoc; assumption|]. rewrite app_length, Nat.add_comm. exact L.
      - destruct L as (La & Lb & L).
        destruct (hrep_lt _ _ _ R La) as (s & S & E1 & E2 & R1).
        destruct (hrep_lt _ _ _ R Lb) as (t & T & F1 & F2 & R2).
        destruct (rep_union n _ _ _ _ R1 R2) as (s' & E3 & R3).
        eexists (H ++ [s']), _, (Handle (length H)). unfold hget. rewrite E1; cbn. rewrite F1; cbn. rewrite E3; cbn.
        split; [reflexivity|]. split; [rewrite Hl; econstructor; eassumption|].
        split; [apply hrep_snoc; assumption|]. rewrite app_length, Nat.add_comm. exact L.
      - destruct L as (La & Lb & L).
        destruct (hrep_lt _ _ _ R La) as (s & S & E1 & E2 & R1).
        destruct (hrep_lt _ _ _ R Lb) as (t & T & F1 & F2 & R2).
        destruct (rep_inter n _ _ _ _ R1 R2) as (s' & E3 & R3).
        eexists (H ++ [s']), _, (Handle (length H)). unfold hget. rewrite E1; cbn. rewrite F1; cbn. rewrite E3; cbn.
        split; [reflexivity|]. split; [rewrite Hl; econstructor; eassumption|].
        split; [apply hrep_snoc; assumption|]. rewrite app_length, Nat.add_comm. exact L.
      - destruct L as (Lh & L). destruct (hrep_lt _ _ _ R Lh) as (s & S & E1 & E2 & R1).
        exists H, A, (Bool (is_has s v)). unfold hget. rewrite E1; cbn.
        split; [reflexivity|]. split; [econstructor; [eassumption|apply rep_has; assumption]|]. auto.
      - destruct L as (Lh & L). destruct (hrep_lt _ _ _ R Lh) as (s & S & E1 & E2 & R1).
        exists H, A, (Num (is_size s)). unfold hget. rewrite E1; cbn.
        split; [reflexivity|]. split; [econstructor; [eassumption|apply rep_size; assumption]|]. auto. }
    destruct STEP as (H1 & A1 & out & E & SS & R1 & L1).
    destruct (IH (n + 2) H1 A1 R1 L1) as (H2 & A2 & outs & E2 & SR & R2).
    exists H2, A2, (out :: outs). rewrite E; cbn. rewrite E2; cbn.
    split; [reflexivity|]. split; [econstructor; eassumption|assumption].
  Qed.

  Theorem idset_history ops :
    legal 0 ops ->
    exists H A outs, isrun ord 0 nil ops = Ok (H, outs) /\ srun nil ops A outs /\
      length H = length A /\
      forall h s S, nth_error H h = Some s -> nth_error A h = Some S ->
        (forall v, is_has s v = true <-> S v) /\ card S (is_size s) /\ ~ S id0.
  Proof.
    intros L. destruct (isrun_refines ops 0 nil nil) as (H & A & outs & E & SR & R); [constructor|exact L|].
    exists H, A, outs. split; [assumption|split; [assumption|split; [apply hrep_len; assumption|]]].
    intros h s S E1 E2. destruct (hrep_get _ _ _ _ R E2) as (s2 & E3 & R3).
    rewrite E1 in E3. inversion E3; subst s2.
    split; [intros v; apply rep_has; assumption|split; [apply rep_size; assumption|]].
    destruct R3 as (W & Z & HH). rewrite <- HH. assumption.
  Qed.

  Lemma add_zero_panics n H h : isstep ord n H (OAdd h id0) = Panic.
  Proof. cbn. unfold hget. destruct (nth_error H h); reflexivity. Qed.
End WithOrder.
