(** External product: digits, accumulation, division by P (C11, C12). *)
From Verif Require Import Base NumTheory Negacyclic Ntt Word FloatModel BasisExt BasisExtProofs DecompProofs Rows RlweModel SchemeSpec.
From Coq Require Import Znumtheory Setoid Morphisms.
Open Scope Z_scope.

Lemma slack_ok D X : - D < 2 ^ 40 * X < (2 ^ 40 + 1) * D -> Z.abs X <= slack D.
Proof.
  intros [A B]. unfold slack. pose proof (Z.div_mod D (2 ^ 40) ltac:(lia)) as E. pose proof (Z.mod_pos_bound D (2 ^ 40) ltac:(lia)) as M.
  assert (0 <= D) by lia. assert (0 <= D / 2 ^ 40) by (apply Z.div_pos; lia).
  assert (X <= D + D / 2 ^ 40) by lia. lia.
Qed.
Lemma slack_mono x y : x <= y -> slack x <= slack y.
Proof. intros H. unfold slack. pose proof (Z.div_le_mono x y (2 ^ 40) ltac:(lia) H). lia. Qed.
Lemma slack_nonneg x : 0 <= x -> 0 <= slack x.
Proof. intros H. unfold slack. assert (0 <= x / 2 ^ 40) by (apply Z.div_pos; lia). lia. Qed.

Lemma maxl_ge l x : In x l -> x <= maxl l.
Proof. induction l as [|a l IH]; intros H; [destruct H|]. cbn [maxl fold_right]. fold (maxl l). destruct H as [->|H]; [lia|]. specialize (IH H). lia. Qed.
Lemma maxl_nonneg l : 0 <= maxl l.
Proof. induction l as [|a l IH]; [cbn; lia|]. cbn [maxl fold_right]. fold (maxl l). lia. Qed.
Lemma dig_bound_nonneg pp level : 0 <= dig_bound pp level.
Proof. apply slack_nonneg. apply maxl_nonneg. Qed.

Section ExtProd.
  Context {N : nat} (pp : rparams) (WF : wfp N pp).
  Notation R := (R N).
  Add Ring R_ring3 : (@R_ring_theory N).
  Implicit Types (i : mi).
  Notation okrows := (@okrows N pp). Notation mval := (@mval N pp). Notation pval := (@pval N pp). Notation gad := (@gad N pp).
  Notation fqp := (@fqp N). Notation frow := (@frow N).


  Lemma nth_Qs j : (j < length (Qm pp))%nat -> nth j (Qs pp) 0 = mq (Qi pp j).
  Proof. intros H. unfold Qs, Qi. rewrite (nth_map' _ _ _ dmod) by assumption. reflexivity. Qed.
  Lemma nth_Ps k : (k < length (Pm pp))%nat -> nth k (Ps pp) 0 = mq (Pi pp k).
  Proof. intros H. unfold Ps, Pi. rewrite (nth_map' _ _ _ dmod) by assumption. reflexivity. Qed.
  Lemma len_Qs : length (Qs pp) = length (Qm pp). Proof. apply map_length. Qed.
  Lemma len_Ps : length (Ps pp) = length (Pm pp). Proof. apply map_length. Qed.

  Lemma okmod_md level i : (level < length (Qm pp))%nat -> vi pp level i -> okmod (N := N) (md pp i).
  Proof.
    intros L V. apply (proj1 (Forall_forall _ _) (wf_okm _ _ WF)). apply in_or_app. destruct i; cbn in *.
    - left. apply nth_In. lia.
    - right. apply nth_In. assumption.
  Qed.
  Lemma Npos' : (0 < N)%nat.
  Proof. apply (Npos (md pp (MQ 0))). apply (okmod_md 0); [apply (wf_Qpos _ _ WF)|cbn; lia]. Qed.
  Lemma Pprod_pos : 0 < Pprod pp.
  Proof.
    apply prodl_pos. intros p Hp. destruct (wf_base _ _ WF) as [_ F]. apply Forall_app in F. destruct F as [_ F].
    apply (proj1 (Forall_forall _ _) F) in Hp. apply okq_lt in Hp. lia.
  Qed.
  Lemma okbase_Q : okbase (Qs pp).
  Proof. destruct (wf_base _ _ WF) as [ND F]. apply Forall_app in F. split; [apply NoDup_app_remove_r in ND; assumption|apply F]. Qed.
  Lemma okbase_P : okbase (Ps pp).
  Proof. destruct (wf_base _ _ WF) as [ND F]. apply Forall_app in F. split; [apply NoDup_app_remove_l in ND; assumption|apply F]. Qed.
  Lemma P_cancel j : (j < length (Qm pp))%nat -> Z.gcd (Pprod pp) (mq (Qi pp j)) = 1.
  Proof.
    intros H. destruct (okmod_md j (MQ j) H ltac:(cbn; lia)) as [_ [Pq _]]. cbn in Pq. apply prime_gcd; [assumption|].
    apply prime_divide_prodl; [assumption|..].
    - intros p Hp. apply (proj1 (Forall_forall _ _) (proj2 okbase_P)) in Hp. apply Hp.
    - intros I. destruct (wf_base _ _ WF) as [ND _].
      assert (J : In (mq (Qi pp j)) (Qs pp)) by (rewrite <- nth_Qs by assumption; apply nth_In; rewrite len_Qs; assumption).
      revert I J ND. generalize (Qs pp) (Ps pp) (mq (Qi pp j)). clear. induction l as [|a l IH]; intros l0 z I J ND; [destruct J|].
      cbn in ND. inversion ND; subst. destruct J as [->|J]; [apply H1; apply in_or_app; right; assumption|]. apply (IH l0 z); assumption.
  Qed.
  Lemma P_zero k a : (k < length (Pm pp))%nat -> eqm (mq (Pi pp k)) (smul (Pprod pp) a) (R0 : R).
  Proof.
    intros H. apply (eqm_divide (Pprod pp)).
    - rewrite <- nth_Ps by assumption. apply in_divide_prodl. apply nth_In. rewrite len_Ps. assumption.
    - exists a. rewrite smul_cst. ring.
  Qed.

  (** the generic last step of every noise argument: an identity modulo every Q_j and P_k can be divided by P *)
  Lemma div_P level (o b : mi -> R) (Err : R) B : (level < length (Qm pp))%nat ->
    (forall i, vi pp level i -> eqm (qmod pp i) (smul (Pprod pp) (o i)) (add (smul (Pprod pp) (b i)) Err)) -> bnd Err B ->
    exists E, bnd E (B / Pprod pp) /\ Err = smul (Pprod pp) E /\
      forall j, (j <= level)%nat -> eqm (mq (Qi pp j)) (o (MQ j)) (add (b (MQ j)) E).
  Proof.
    intros L H HB.
    assert (Z0 : eqm (Pprod pp) Err R0).
    { apply eqm_co. intros c Hc. apply divide_prodl.
      - apply okbase_P.
      - intros p Hp. apply (proj1 (Forall_forall _ _) (proj2 okbase_P)) in Hp. apply Hp.
      - intros p Hp. apply (In_nth _ _ 0) in Hp. destruct Hp as (k & Hk & <-). rewrite len_Ps in Hk. rewrite nth_Ps by assumption.
        pose proof (H (MP k) Hk) as X. unfold qmod, md in X. rewrite !P_zero in X by assumption.
        apply (proj1 (eqm_co _ _ _)); [|assumption].
        replace Err with (add R0 Err) by ring. symmetry. exact X. }
    destruct (eqm0_div (Pprod pp) Err B Pprod_pos Z0 HB) as (E & E1 & E2). exists E. split; [assumption|]. split; [assumption|].
    intros j Hj. apply (eqm_cancel _ (Pprod pp)); [apply P_cancel; lia|].
    rewrite (H (MQ j) Hj), E1. rewrite !smul_cst. match goal with |- eqm _ ?l ?r => replace l with r by ring end. reflexivity.
  Qed.

  (** row access of the level operations *)
  Lemma fqp_lvl1 level f x i : vi pp level i -> fqp (lvl1 pp level f x) i = f (md pp i) (fqp x i).
  Proof. destruct i; cbn [vi md fqp lvl1 qpQ qpP]; intros H; unfold row at 1; try unfold lvlQ1; (rewrite nth_tab by lia); reflexivity. Qed.
  Lemma fqp_lvl2 level f x y i : vi pp level i -> fqp (lvl2 pp level f x y) i = f (md pp i) (fqp x i) (fqp y i).
  Proof. destruct i; cbn [vi md fqp lvl2 qpQ qpP]; intros H; unfold row at 1; try unfold lvlQ2; (rewrite nth_tab by lia); reflexivity. Qed.
  Lemma fqp_lvl3 level f x y z i : vi pp level i -> fqp (lvl3 pp level f x y z) i = f (md pp i) (fqp x i) (fqp y i) (fqp z i).
  Proof. destruct i; cbn [vi md fqp lvl3 qpQ qpP]; intros H; unfold row at 1; try unfold lvlQ3; (rewrite nth_tab by lia); reflexivity. Qed.
  Lemma row_lvlQ1 level f a j : (j <= level)%nat -> row (lvlQ1 pp level f a) j = f (Qi pp j) (row a j : R).
  Proof. intros H. unfold row at 1, lvlQ1. rewrite nth_tab by lia. reflexivity. Qed.
  Lemma row_lvlQ2 level f a b j : (j <= level)%nat -> row (lvlQ2 pp level f a b) j = f (Qi pp j) (row a j : R) (row b j : R).
  Proof. intros H. unfold row at 1, lvlQ2. rewrite nth_tab by lia. reflexivity. Qed.
  Lemma row_lvlQ3 level f a b c j : (j <= level)%nat -> row (lvlQ3 pp level f a b c) j = f (Qi pp j) (row a j : R) (row b j : R) (row c j : R).
  Proof. intros H. unfold row at 1, lvlQ3. rewrite nth_tab by lia. reflexivity. Qed.


  (** ** digits *)
  Definition digR level (k : nat) (a : list R) : R := mkR (fun x => dig_int (Qs pp) (alpha pp) level k (col a x)).
  Definition dig_qp level (D : R) : polyQP N :=
    QP (tab (S level) (fun j => ntt (Qi pp j) D)) (tab (length (Pm pp)) (fun k => ntt (Pi pp k) D)).
  Lemma fqp_dig level D i : vi pp level i -> fqp (dig_qp level D) i = ntt (md pp i) D.
  Proof. destruct i; cbn [vi md fqp dig_qp qpQ qpP]; intros H; unfold row; rewrite nth_tab by lia; reflexivity. Qed.

  Lemma beta_le level k : (level < length (Qm pp))%nat -> (k < beta pp level)%nat -> (k * alpha pp <= level)%nat.
  Proof.
    intros L H. pose proof (wf_alpha _ _ WF). pose proof (wf_Q _ _ WF).
    destruct (beta_exact level (alpha pp)) as [_ BB]; try lia. unfold beta in H. nia.
  Qed.
  Lemma beta_pos level : (level < length (Qm pp))%nat -> (0 < beta pp level)%nat.
  Proof.
    intros L. pose proof (wf_alpha _ _ WF). pose proof (wf_Q _ _ WF).
    destruct (beta_exact level (alpha pp)) as [_ BB]; try lia. unfold beta. nia.
  Qed.

  Lemma col_range level a x : (level < length (Qm pp))%nat -> okrows level a -> (x < N)%nat ->
    (level < length (col a x))%nat /\ forall j, (j <= level)%nat -> 0 <= nth j (col a x) 0 <= nth j (Qs pp) 0.
  Proof.
    intros L [LA A] Hx. rewrite col_length. split; [assumption|]. intros j Hj. rewrite col_nth by lia. rewrite nth_Qs by lia. apply A; assumption.
  Qed.

  Lemma DecomposeSingleNTT_ok level k a : (level < length (Qm pp))%nat -> (k < beta pp level)%nat -> okrows level a ->
    DecomposeSingleNTT pp level k a = Ok (dig_qp level (digR level k a)).
  Proof.
    intros L K A. unfold DecomposeSingleNTT. destruct (Nat.leb_spec (length a) level) as [X|_]; [destruct A; lia|].
    destruct (colmap_ok (N := N) (S level + length (Pm pp)) (fun x => '(oq, op) <- DecomposeAndSplit (NewDecomposer (Qs pp) (Ps pp) (gam pp)) (Qs pp) (Ps pp)
                             level (levelP pp) (alpha pp) k (gam pp) (col a x) ;; Ok (oq ++ op))
       (fun x o => (forall j, (j <= level)%nat -> eqz (mq (Qi pp j)) (nth j o 0) (co (digR level k a) x)) /\
                   (forall j, (j < length (Pm pp))%nat -> eqz (mq (Pi pp j)) (nth (S level + j) o 0) (co (digR level k a) x)))) as (rows & E & LR & F).
    - intros x Hx. destruct (col_range level a x L A Hx) as [C1 C2].
      pose proof (wf_alpha _ _ WF) as WA. pose proof (wf_P32 _ _ WF). pose proof (wf_Q _ _ WF).
      destruct (DecomposeAndSplit_ok (Qs pp) (Ps pp) (gam pp) (alpha pp) level k (col a x) (wf_base _ _ WF) WA (wf_gam _ _ WF))
        as (oq & op & E & L1 & L2 & O1 & O2); try (rewrite ?len_Qs, ?len_Ps; try lia; try (apply (wf_div _ _ WF)); try (apply (gam_alpha_le pp WF)); fail); trivial.
      { apply beta_le; assumption. }
      rewrite len_Ps in E. fold (levelP pp) in E. rewrite E. cbn [rbind]. eexists. split; [reflexivity|]. unfold digR. rewrite co_mkR by assumption. split.
      + intros j Hj. rewrite app_nth1 by lia. rewrite <- nth_Qs by lia. apply O1. assumption.
      + intros j Hj. rewrite app_nth2 by lia. rewrite L1. replace (S level + j - S level)%nat with j by lia. rewrite <- nth_Ps by lia. apply O2. rewrite len_Ps. assumption.
    - rewrite E. cbn [rbind]. f_equal. unfold lvl1, dig_qp. cbn [qpQ qpP]. unfold lvlQ1. f_equal.
      + apply tab_ext. intros j Hj. apply ntt_eqm; [apply (okmod_md level (MQ j) L ltac:(cbn; lia))|].
        apply eqm_co. intros x Hx. destruct (F x Hx) as (o & _ & [O1 _] & O). unfold row in *. rewrite nth_firstn by lia.
        rewrite O by lia. apply O1. lia.
      + apply tab_ext. intros j Hj. apply ntt_eqm; [apply (okmod_md level (MP j) L ltac:(cbn; lia))|].
        apply eqm_co. intros x Hx. destruct (F x Hx) as (o & _ & [_ O2] & O). unfold row in *. rewrite nth_skipn.
        rewrite O by lia. apply O2. lia.
  Qed.

  Lemma digR_bnd level k a : (level < length (Qm pp))%nat -> (k < beta pp level)%nat -> okrows level a ->
    bnd (digR level k a) (dig_bound pp level).
  Proof.
    intros L K A x Hx. unfold digR. rewrite co_mkR by assumption. destruct (col_range level a x L A Hx) as [C1 C2].
    destruct (dig_int_ok (Qs pp) (alpha pp) level k (col a x) okbase_Q (wf_alpha _ _ WF)) as [_ B]; rewrite ?len_Qs; trivial; [apply beta_le; assumption|].
    apply slack_ok in B. etransitivity; [exact B|]. unfold dig_bound. apply slack_mono. apply maxl_ge.
    apply in_map_iff. exists k. split; [reflexivity|]. apply in_seq. lia.
  Qed.
  Lemma digR_cong level k a j : (level < length (Qm pp))%nat -> (k < beta pp level)%nat -> okrows level a ->
    (j <= level)%nat -> (k * alpha pp <= j < (k + 1) * alpha pp)%nat -> eqm (mq (Qi pp j)) (digR level k a) (row a j).
  Proof.
    intros L K A Hj Hb. apply eqm_co. intros x Hx. unfold digR. rewrite co_mkR by assumption. destruct (col_range level a x L A Hx) as [C1 C2].
    destruct (dig_int_ok (Qs pp) (alpha pp) level k (col a x) okbase_Q (wf_alpha _ _ WF)) as [B _]; rewrite ?len_Qs; trivial; [apply beta_le; assumption|].
    specialize (B (j - k * alpha pp)%nat). unfold blk_len in B. replace (k * alpha pp + (j - k * alpha pp))%nat with j in B by lia.
    rewrite nth_Qs, col_nth in B by (try (rewrite col_length in C1); lia). apply B. lia.
  Qed.

  Definition digs level (a : list R) : list (polyQP N) := map (fun k => dig_qp level (digR level k a)) (seq 0 (beta pp level)).
  Lemma rmapM_map {A B} (f : A -> res B) (g : A -> B) l : (forall x, In x l -> f x = Ok (g x)) -> rmapM f l = Ok (map g l).
  Proof.
    induction l as [|x l IH]; intros H; cbn; [reflexivity|]. rewrite H by (left; reflexivity). cbn.
    rewrite IH by (intros; apply H; right; assumption). reflexivity.
  Qed.
  Lemma Decompose_ok level a : (level < length (Qm pp))%nat -> okrows level (inv_form pp level a) ->
    Decompose pp level a = Ok (digs level (inv_form pp level a)).
  Proof.
    intros L A. unfold Decompose, digs. apply rmapM_map. intros k Hk. apply in_seq in Hk. apply DecomposeSingleNTT_ok; trivial. lia.
  Qed.
  Lemma inv_form_ok level a : (level < length (Qm pp))%nat -> pntt a = true -> okrows level (inv_form pp level a).
  Proof.
    intros L E. unfold inv_form. rewrite E. split; [unfold lvlQ1; rewrite tab_length; lia|]. intros j Hj. rewrite row_lvlQ1 by assumption.
    apply canon_inr. apply intt_canon. apply (okmod_md level (MQ j) L Hj).
  Qed.

  (** ** gadget: the digits recombine *)

  Lemma gad_sum level (i : mi) (h : nat -> R) (b : R) : (level < length (Qm pp))%nat -> vi pp level i ->
    (forall k j, i = MQ j -> (k < beta pp level)%nat -> (k * alpha pp <= j < (k + 1) * alpha pp)%nat -> eqm (qmod pp i) (h k) b) ->
    eqm (qmod pp i) (Lsum (seq 0 (beta pp level)) (fun k => mul (gad k i) (h k))) (smul (Pprod pp) b).
  Proof.
    intros L V H. destruct i as [j|k].
    - cbn in V. pose proof (wf_alpha _ _ WF) as WA. pose proof (wf_Q _ _ WF) as WQ.
      destruct (blocks_partition level (alpha pp) j) as (k0 & [K1 K2] & U); try lia. fold (beta pp level) in K1.
      unfold blk_len in K2.
      rewrite (Lsum_single (seq 0 (beta pp level)) _ k0 (seq_NoDup _ _)).
      + cbn [gad]. destruct (Nat.leb_spec (k0 * alpha pp) j); [|lia]. destruct (Nat.ltb_spec j ((k0 + 1) * alpha pp)); [|lia].
        cbn [andb]. rewrite (H k0 j); [rewrite smul_cst; reflexivity|reflexivity|assumption|lia].
      + apply in_seq. lia.
      + intros k Hk Nk. apply in_seq in Hk. cbn [gad].
        destruct (Nat.leb_spec (k * alpha pp) j); cbn [andb]; [|ring]. destruct (Nat.ltb_spec j ((k + 1) * alpha pp)); [|ring].
        exfalso. apply Nk. symmetry. apply U. split; [unfold beta in Hk; lia|]. unfold blk_len. lia.
    - cbn in V. unfold qmod, md. rewrite P_zero by assumption. rewrite Lsum_zero; [reflexivity|]. intros k' _. cbn [gad]. ring.
  Qed.

  (** ** multiply-accumulate *)
  Lemma mac_step level bg f : (level < length (Qm pp))%nat -> forall n (D : nat -> R), (n < length bg)%nat ->
    (forall k, (k <= n)%nat -> mval level (nth k bg (QP nil nil)) (f k)) ->
    exists acc, rfold (fun acc id => let '(k, d) := id in key <- idx bg k ;; Ok (if (k =? 0)%nat then lvl2 pp level r_mont key d else lvl3 pp level r_mont_add key d acc))
        (combine (seq 0 (S n)) (map (fun k => dig_qp level (D k)) (seq 0 (S n)))) (QP nil nil) = Ok acc /\
      forall i, vi pp level i -> canon (md pp i) (fqp acc i) /\ rep (md pp i) (fqp acc i) (Lsum (seq 0 (S n)) (fun k => mul (f k i) (D k))).
  Proof.
    intros L. induction n as [|n IH]; intros D LB H.
    - cbn [seq map combine rfold]. rewrite (idx_nth bg 0 (QP nil nil)) by lia. cbn [rbind Nat.eqb]. eexists. split; [reflexivity|].
      intros i V. rewrite fqp_lvl2, fqp_dig by assumption. pose proof (okmod_md level i L V) as OM.
      destruct (H 0%nat ltac:(lia) i V) as [H1 H2].
      pose proof (canon_wrd _ _ (proj2 OM) (ntt_canon (md pp i) (D 0%nat) OM)) as WD.
      split; [apply r_mont_ok; [apply OM|assumption|assumption]|].
      apply (rep_eqm _ _ (mul (f 0%nat i) (D 0%nat))).
      + apply rep_mont; trivial. apply rep_ntt. assumption.
      + cbn [Lsum seq]. match goal with |- eqm _ ?l ?r => replace r with l by ring end. reflexivity.
    - rewrite (seq_S (S n)). rewrite map_app. cbn [plus map].
      assert (LC : length (seq 0 (S n)) = length (map (fun k => dig_qp level (D k)) (seq 0 (S n)))) by (rewrite map_length; reflexivity).
      assert (CA : forall {A B} (l1 l1' : list A) (l2 l2' : list B), length l1 = length l2 -> combine (l1 ++ l1') (l2 ++ l2') = combine l1 l2 ++ combine l1' l2').
      { clear. induction l1 as [|a l1 IH]; intros l1' [|b l2] l2' E; try discriminate; cbn; [reflexivity|]. f_equal. apply IH. cbn in E. lia. }
      rewrite (CA _ _ _ _ _ _ LC). rewrite rfold_app. destruct (IH D ltac:(lia)) as (acc & E & F); [intros; apply H; lia|].
      rewrite E. cbn [rbind combine rfold]. rewrite (idx_nth bg (S n) (QP nil nil)) by lia. cbn [rbind Nat.eqb]. eexists. split; [reflexivity|].
      intros i V. rewrite fqp_lvl3, fqp_dig by assumption. pose proof (okmod_md level i L V) as OM.
      destruct (H (S n) ltac:(lia) i V) as [H1 H2]. destruct (F i V) as [F1 F2].
      pose proof (canon_wrd _ _ (proj2 OM) (ntt_canon (md pp i) (D (S n)) OM)) as WD.
      destruct (rep_mont_add (md pp i) _ _ _ _ (D (S n)) _ OM H1 WD (canon_inr _ _ F1) H2 (rep_ntt _ _ OM) F2) as [G1 G2].
      split; [assumption|]. apply (rep_eqm _ _ _ _ G2). rewrite Lsum_app. cbn [Lsum].
      match goal with |- eqm _ ?l ?r => replace r with l by ring end. reflexivity.
  Qed.

  Lemma mac_ok level bg f (D : nat -> R) : (level < length (Qm pp))%nat -> (beta pp level <= length bg)%nat ->
    (forall k, (k < beta pp level)%nat -> mval level (nth k bg (QP nil nil)) (f k)) ->
    exists acc, mac_digits pp level bg (map (fun k => dig_qp level (D k)) (seq 0 (beta pp level))) = Ok acc /\
      forall i, vi pp level i -> canon (md pp i) (fqp acc i) /\ rep (md pp i) (fqp acc i) (Lsum (seq 0 (beta pp level)) (fun k => mul (f k i) (D k))).
  Proof.
    intros L LB H. pose proof (beta_pos level L) as BP. unfold mac_digits. rewrite map_length, seq_length.
    destruct (beta pp level) as [|n]; [lia|]. apply mac_step; trivial. intros k Hk. apply H. lia.
  Qed.

  (** ** division by P *)
  Lemma rescaleP_ok level c (f : mi -> R) : (level < length (Qm pp))%nat ->
    (forall i, vi pp level i -> canon (md pp i) (fqp c i) /\ rep (md pp i) (fqp c i) (f i)) ->
    exists out Rm, rescaleP pp level c = Ok out /\ length out = S level /\ (forall j, (j <= level)%nat -> canon (Qi pp j) (row out j)) /\
      bnd Rm (slack (Pprod pp)) /\
      forall i, vi pp level i -> eqm (qmod pp i) (smul (Pprod pp) (frow out i)) (sub (f i) Rm).
  Proof.
    intros L H. set (c' := lvl1 pp level intt c).
    assert (LP : (0 < length (Pm pp))%nat) by (pose proof (wf_gam _ _ WF); pose proof (wf_alpha _ _ WF); pose proof (gam_alpha_le pp WF); nia).
    assert (SP : S (levelP pp) = length (Pm pp)) by (unfold levelP; lia).
    assert (C : forall i, vi pp level i -> canon (md pp i) (fqp c' i) /\ eqm (qmod pp i) (fqp c' i) (f i)).
    { intros i V. unfold c'. rewrite fqp_lvl1 by assumption. split; [apply intt_canon; apply (okmod_md level i L V)|]. apply H. assumption. }
    set (Rm := mkR (fun x => modup_int (Ps pp) (col (qpP c') x)) : R).
    assert (LQ' : length (qpQ c') = S level) by apply tab_length.
    assert (LP' : length (qpP c') = length (Pm pp)) by apply tab_length.
    assert (FWall : forall x, (x < N)%nat -> Forall (fun z => 0 <= z < W) (col (qpP c') x)).
    { intros x Hx. apply Forall_forall. intros z Hz. apply in_map_iff in Hz. destruct Hz as (r & <- & Hr). apply (In_nth _ _ R0) in Hr. destruct Hr as (k & Hk & <-).
      rewrite LP' in Hk. pose proof (C (MP k) Hk) as [X _].
      exact (canon_wrd _ _ (proj2 (okmod_md level (MP k) L Hk)) X x Hx). }
    destruct (colmap_ok (N := N) (S level) (fun x => ModDownQPtoQ (Qs pp) (Ps pp) level (levelP pp) (col (qpQ c') x) (col (qpP c') x))
      (fun x o => forall j, (j <= level)%nat -> 0 <= nth j o 0 < mq (Qi pp j) /\ eqz (mq (Qi pp j)) (Pprod pp * nth j o 0) (co (row (qpQ c') j) x - co Rm x))) as (out & E & LO & F).
    { intros x Hx. pose proof (FWall x Hx) as FW.
      destruct (ModDownQPtoQ_ok (Qs pp) (Ps pp) level (levelP pp) (col (qpQ c') x) (col (qpP c') x) (wf_base _ _ WF)) as (o & E & LO & O); trivial.
      - rewrite len_Qs. assumption.
      - rewrite len_Ps. lia.
      - pose proof (wf_P32 _ _ WF). lia.
      - rewrite col_length. lia.
      - intros j Hj. rewrite col_nth by lia. rewrite nth_Qs by lia. pose proof (C (MQ j) Hj) as [X _]. specialize (X x Hx). cbn [md fqp] in X. lia.
      - exists o. split; [exact E|]. intros j Hj. specialize (O j Hj). rewrite nth_Qs, col_nth in O by lia.
        rewrite SP, !firstn_all2 in O by (rewrite ?len_Ps, ?col_length; lia). unfold Rm. rewrite co_mkR by assumption. exact O. }
    exists out, Rm. split; [exact E|]. split; [exact LO|]. split; [|split].
    - intros j Hj x Hx. destruct (F x Hx) as (o & _ & O & X). rewrite X by lia. apply O. assumption.
    - intros x Hx. unfold Rm. rewrite co_mkR by assumption. apply slack_ok.
      apply modup_int_ok; [apply okbase_P|rewrite len_Ps; apply (wf_P32 _ _ WF)|rewrite col_length, len_Ps; assumption|].
      apply FWall. assumption.
    - intros [j|k] V.
      + cbn [frow]. destruct (C (MQ j) V) as [_ X]. cbn [fqp qmod md] in *. rewrite <- X. unfold qmod, md. apply eqm_co. intros x Hx. rewrite co_smul, co_sub.
        destruct (F x Hx) as (o & _ & O & Y). cbn in V. rewrite Y by lia. apply O. assumption.
      + cbn [frow]. unfold qmod, md. rewrite P_zero by assumption. destruct (C (MP k) V) as [_ X]. unfold qmod, md in X. rewrite <- X.
        cbn [fqp]. apply eqm_co. intros x Hx. rewrite co_R0, co_sub. unfold Rm. rewrite co_mkR by assumption.
        destruct (modup_int_ok (Ps pp) (col (qpP c') x)) as [M _]; [apply okbase_P|rewrite len_Ps; apply (wf_P32 _ _ WF)|rewrite col_length, len_Ps; assumption| |].
        { apply FWall. assumption. }
        specialize (M k). rewrite len_Ps in M. cbn in V. specialize (M V). rewrite nth_Ps, col_nth in M by lia.
        destruct M as [z Hz]. exists z. lia.
  Qed.

  (** ** ExternalProduct *)
  Theorem ext_prod_gen level (a : poly N) (bg : swk N) f : (level < length (Qm pp))%nat ->
    okrows level (inv_form pp level a) -> (beta pp level <= length bg)%nat ->
    (forall k, (k < beta pp level)%nat -> mval level (nth k bg (QP nil nil)) (f k)) ->
    exists out Rm, ExternalProduct pp level a bg = Ok out /\ length out = S level /\ (forall j, (j <= level)%nat -> canon (Qi pp j) (row out j)) /\
      bnd Rm (slack (Pprod pp)) /\
      forall i, vi pp level i -> eqm (qmod pp i) (smul (Pprod pp) (frow out i))
        (sub (Lsum (seq 0 (beta pp level)) (fun k => mul (f k i) (digR level k (inv_form pp level a)))) Rm).
  Proof.
    intros L A LB H. unfold ExternalProduct. rewrite Decompose_ok by assumption. cbn [rbind]. unfold digs.
    destruct (mac_ok level bg f (fun k => digR level k (inv_form pp level a)) L LB H) as (acc & E & F). rewrite E. cbn [rbind].
    apply (rescaleP_ok level acc (fun i => Lsum (seq 0 (beta pp level)) (fun k => mul (f k i) (digR level k (inv_form pp level a)))) L F).
  Qed.
End ExtProd.
