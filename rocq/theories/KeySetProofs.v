From Verif Require Import Base KeySetModel KeySetSpec.

Section Simple.
  Context {Key : Type} (kid : Key -> string).

  (** The value a history leaves, computed from the last operation backwards. *)
  Lemma ks_snoc ops o : ks_run kid (ops ++ [o]) = ks_step kid (ks_run kid ops) o.
  Proof. unfold ks_run. rewrite fold_left_app. reflexivity. Qed.

  Lemma ks_get_current ops id k :
    mget seq_dec (ks_run kid ops) id = Some k <-> current kid ops id k.
  Proof.
    revert k; induction ops as [|o ops IH] using rev_ind; intros k.
    - split; [discriminate|]. intros (b & a & E & _). destruct b; discriminate.
    - rewrite ks_snoc. destruct o as [k'|id']; cbn [ks_step]; unfold ks_add, ks_del;
        rewrite ?mget_mset, ?mget_mdel.
      + destruct (seq_dec id (kid k')) as [E|E].
        * split.
          { intros E2; inversion E2; subst. exists ops, nil. split; [reflexivity|].
            split; [reflexivity|]. split; [intros ? []|intros []]. }
          { intros (b & a & E2 & E3 & N1 & N2).
            destruct a as [|x a] using rev_ind.
            - apply app_inj_tail in E2. destruct E2 as [_ E2]; inversion E2; reflexivity.
            - clear IHa. rewrite app_comm_cons, app_assoc in E2. apply app_inj_tail in E2. destruct E2 as [_ <-].
              exfalso. apply (N1 k'); [apply in_or_app; right; left; reflexivity|congruence]. }
        * rewrite IH. split.
          { intros (b & a & E2 & E3 & N1 & N2). exists b, (a ++ [KAdd k']).
            rewrite E2, <- app_assoc. split; [reflexivity|]. split; [assumption|].
            split.
            - intros x Hx. apply in_app_or in Hx. destruct Hx as [Hx|[Hx|[]]]; [auto|inversion Hx; congruence].
            - intros Hx. apply in_app_or in Hx. destruct Hx as [Hx|[Hx|[]]]; [auto|discriminate]. }
          { intros (b & a & E2 & E3 & N1 & N2).
            destruct a as [|x a] using rev_ind.
            - apply app_inj_tail in E2. destruct E2 as [_ E2]; inversion E2; congruence.
            - clear IHa. rewrite app_comm_cons, app_assoc in E2. apply app_inj_tail in E2. destruct E2 as [-> <-].
              exists b, a. split; [reflexivity|]. split; [assumption|].
              split; [intros y Hy; apply N1; apply in_or_app; left; assumption|].
              intros Hy; apply N2; apply in_or_app; left; assumption. }
      + destruct (seq_dec id id') as [E|E].
        * split; [discriminate|]. intros (b & a & E2 & E3 & N1 & N2).
          destruct a as [|x a] using rev_ind.
          -- apply app_inj_tail in E2. destruct E2 as [_ E2]; discriminate.
          -- clear IHa. rewrite app_comm_cons, app_assoc in E2. apply app_inj_tail in E2. destruct E2 as [-> <-].
             exfalso. apply N2. apply in_or_app; right; left; congruence.
        * rewrite IH. split.
          { intros (b & a & E2 & E3 & N1 & N2). exists b, (a ++ [KDel id']).
            rewrite E2, <- app_assoc. split; [reflexivity|]. split; [assumption|].
            split.
            - intros x Hx. apply in_app_or in Hx. destruct Hx as [Hx|[Hx|[]]]; [auto|discriminate].
            - intros Hx. apply in_app_or in Hx. destruct Hx as [Hx|[Hx|[]]]; [auto|inversion Hx; congruence]. }
          { intros (b & a & E2 & E3 & N1 & N2).
            destruct a as [|x a] using rev_ind.
            - apply app_inj_tail in E2. destruct E2 as [_ E2]; discriminate.
            - clear IHa. rewrite app_comm_cons, app_assoc in E2. apply app_inj_tail in E2. destruct E2 as [-> <-].
              exists b, a. split; [reflexivity|]. split; [assumption|].
              split; [intros y Hy; apply N1; apply in_or_app; left; assumption|].
              intros Hy; apply N2; apply in_or_app; left; assumption. }
  Qed.

  Lemma ks_history ops id :
    (forall k, ks_get (ks_run kid ops) id = Ok k <-> current kid ops id k) /\
    (ks_get (ks_run kid ops) id = Panic <-> ~ exists k, current kid ops id k).
  Proof.
    unfold ks_get. assert (H := ks_get_current ops id).
    destruct (mget seq_dec (ks_run kid ops) id) as [k0|].
    - split.
      + intros k. rewrite <- H. split; intros E; inversion E; reflexivity.
      + split; [discriminate|]. intros N. exfalso. apply N. exists k0. apply H. reflexivity.
    - split.
      + intros k. rewrite <- H. split; discriminate.
      + split; [|reflexivity]. intros _ (k & Hk). apply H in Hk. discriminate.
  Qed.

  (** The relinearisation key set answers like the simple one; its hoisting buffers are blank after Add. *)
  Context {Buf : Type} (blank : Buf).
  Lemma rl_rv ops : rv (rl_run kid blank ops) = ks_run kid ops.
  Proof.
    induction ops as [|o ops IH] using rev_ind; [reflexivity|].
    rewrite ks_snoc. unfold rl_run in *. rewrite fold_left_app. cbn [fold_left].
    rewrite <- IH. destruct o; reflexivity.
  Qed.
  Lemma rl_history ops id :
    (forall k, rl_get (rl_run kid blank ops) id = Ok k <-> current kid ops id k) /\
    (rl_get (rl_run kid blank ops) id = Panic <-> ~ exists k, current kid ops id k).
  Proof. unfold rl_get. rewrite rl_rv. apply ks_history. Qed.
  Lemma rl_buffers ops id k :
    current kid ops id k ->
    mget seq_dec (rp0 (rl_run kid blank ops)) id <> None /\ mget seq_dec (rp1 (rl_run kid blank ops)) id <> None.
  Proof.
    intros (b & a & E & E2 & _ & _). subst ops.
    assert (G : forall l s, (mget seq_dec (rp0 s) id <> None /\ mget seq_dec (rp1 s) id <> None) ->
       mget seq_dec (rp0 (fold_left (rl_step kid blank) l s)) id <> None /\
       mget seq_dec (rp1 (fold_left (rl_step kid blank) l s)) id <> None).
    { induction l as [|o l IHl]; intros s H; cbn [fold_left]; [assumption|].
      apply IHl. destruct o; cbn [rl_step rl_add rl_del rp0 rp1]; rewrite ?mget_mset; [|assumption].
      destruct (seq_dec id (kid k0)); [split; discriminate|assumption]. }
    unfold rl_run. rewrite fold_left_app. cbn [fold_left]. apply G.
    cbn [rl_step rl_add rp0 rp1]. rewrite !mget_mset.
    destruct (seq_dec id (kid k)); [split; discriminate|congruence].
  Qed.
End Simple.

Section Rot.
  Context {Key : Type} (kid : Key -> string) (kidx : Key -> Z).
  Definition rlook (s : @rks Key) id idx :=
    match mget seq_dec s id with None => None | Some inner => mget Z.eq_dec inner idx end.

  Lemma rlook_add s k id idx :
    rlook (rk_add kid kidx s k) id idx =
    if seq_dec id (kid k) then (if Z.eq_dec idx (kidx k) then Some k else rlook s id idx) else rlook s id idx.
  Proof.
    unfold rlook, rk_add. destruct (mget seq_dec s (kid k)) as [inner|] eqn:E.
    - rewrite E, mget_mset. destruct (seq_dec id (kid k)) as [->|N]; [|reflexivity].
      rewrite mget_mset, E. reflexivity.
    - rewrite mget_mset_eq, !mget_mset. destruct (seq_dec id (kid k)) as [->|N]; [|reflexivity].
      rewrite mget_mset, E. reflexivity.
  Qed.

  Lemma rlook_del s i j id idx :
    rlook (rk_del s i j) id idx =
    if seq_dec id i then (if Z.eq_dec idx j then None else rlook s id idx) else rlook s id idx.
  Proof.
    unfold rlook, rk_del. destruct (mget seq_dec s i) as [inner|] eqn:E.
    - rewrite mget_mset. destruct (seq_dec id i) as [->|N]; [|reflexivity].
      rewrite mget_mdel, E. reflexivity.
    - destruct (seq_dec id i) as [->|N]; [|reflexivity]. rewrite E. destruct (Z.eq_dec idx j); reflexivity.
  Qed.

  Lemma rk_snoc ops o : rk_run kid kidx (ops ++ [o]) = rk_step kid kidx (rk_run kid kidx ops) o.
  Proof. unfold rk_run. rewrite fold_left_app. reflexivity. Qed.

  Lemma rk_get_current ops id idx k :
    rlook (rk_run kid kidx ops) id idx = Some k <-> rcurrent kid kidx ops id idx k.
  Proof.
    revert k; induction ops as [|o ops IH] using rev_ind; intros k.
    - split; [discriminate|]. intros (b & a & E & _). destruct b; discriminate.
    - rewrite rk_snoc.
      assert (KEEP : (forall k', o = RAdd k' -> ~ (kid k' = id /\ kidx k' = idx)) -> o <> RDel id idx ->
         (rcurrent kid kidx ops id idx k <-> rcurrent kid kidx (ops ++ [o]) id idx k)).
      { intros N1 N2. split.
        - intros (b & a & E2 & E3 & E4 & M1 & M2). exists b, (a ++ [o]).
          rewrite E2, <- app_assoc. split; [reflexivity|]. split; [assumption|]. split; [assumption|]. split.
          + intros x Hx. apply in_app_or in Hx. destruct Hx as [Hx|[Hx|[]]]; auto.
          + intros Hx. apply in_app_or in Hx. destruct Hx as [Hx|[Hx|[]]]; auto.
        - intros (b & a & E2 & E3 & E4 & M1 & M2).
          destruct a as [|x a] using rev_ind.
          + apply app_inj_tail in E2. destruct E2 as [_ ->]. exfalso. eapply N1; eauto.
          + clear IHa. rewrite app_comm_cons, app_assoc in E2. apply app_inj_tail in E2. destruct E2 as [-> <-].
            exists b, a. split; [reflexivity|]. split; [assumption|]. split; [assumption|].
            split; [intros y Hy; apply M1; apply in_or_app; left; assumption|].
            intros Hy; apply M2; apply in_or_app; left; assumption. }
      destruct o as [k'|i j]; cbn [rk_step]; rewrite ?rlook_add, ?rlook_del.
      + destruct (seq_dec id (kid k')) as [E|E]; [destruct (Z.eq_dec idx (kidx k')) as [F|F]|].
        * split.
          { intros E2; inversion E2; subst. exists ops, nil. split; [reflexivity|].
            split; [reflexivity|]. split; [reflexivity|]. split; [intros ? []|intros []]. }
          { intros (b & a & E2 & E3 & E4 & N1 & N2).
            destruct a as [|x a] using rev_ind.
            - apply app_inj_tail in E2. destruct E2 as [_ E2]; inversion E2; reflexivity.
            - clear IHa. rewrite app_comm_cons, app_assoc in E2. apply app_inj_tail in E2. destruct E2 as [_ <-].
              exfalso. apply (N1 k'); [apply in_or_app; right; left; reflexivity|split; congruence]. }
        * rewrite IH. apply KEEP; [|discriminate]. intros ? X; inversion X; subst. intros [_ ?]; congruence.
        * rewrite IH. apply KEEP; [|discriminate]. intros ? X; inversion X; subst. intros [? _]; congruence.
      + destruct (seq_dec id i) as [E|E]; [destruct (Z.eq_dec idx j) as [F|F]|].
        * split; [discriminate|]. intros (b & a & E2 & E3 & E4 & N1 & N2).
          destruct a as [|x a] using rev_ind.
          -- apply app_inj_tail in E2. destruct E2 as [_ E2]; discriminate.
          -- clear IHa. rewrite app_comm_cons, app_assoc in E2. apply app_inj_tail in E2. destruct E2 as [-> <-].
             exfalso. apply N2. apply in_or_app; right; left; congruence.
        * rewrite IH. apply KEEP; [discriminate|congruence].
        * rewrite IH. apply KEEP; [discriminate|congruence].
  Qed.

  Lemma rk_history ops id idx :
    (forall k, rk_get (rk_run kid kidx ops) id idx = Ok k <-> rcurrent kid kidx ops id idx k) /\
    (rk_get (rk_run kid kidx ops) id idx = Panic <-> ~ exists k, rcurrent kid kidx ops id idx k).
  Proof.
    assert (E : rk_get (rk_run kid kidx ops) id idx =
                match rlook (rk_run kid kidx ops) id idx with Some k => Ok k | None => Panic end).
    { unfold rk_get, rlook. destruct (mget seq_dec _ id) as [m|]; [|reflexivity]. destruct (mget Z.eq_dec m idx); reflexivity. }
    rewrite E. assert (H := rk_get_current ops id idx).
    destruct (rlook (rk_run kid kidx ops) id idx) as [k0|].
    - split.
      + intros k. rewrite <- H. split; intros X; inversion X; reflexivity.
      + split; [discriminate|]. intros N. exfalso. apply N. exists k0. apply H. reflexivity.
    - split.
      + intros k. rewrite <- H. split; discriminate.
      + split; [|reflexivity]. intros _ (k & Hk). apply H in Hk. discriminate.
  Qed.
End Rot.
