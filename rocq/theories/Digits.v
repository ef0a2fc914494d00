(** External products on already decomposed operands: any digit vector that recombines to the operand, whatever level it was made at. *)
From Verif Require Import Base NumTheory Negacyclic Ntt Word BasisExt BasisExtProofs DecompProofs Rows RlweModel SchemeSpec ExtProd ExtProps KeyGenModel Galois KeyGenProofs.
From Coq Require Import Znumtheory Setoid Morphisms.
Open Scope Z_scope.

Section Dig.
  Context {N : nat} (pp : rparams) (WF : wfp N pp).
  Notation R := (R N).
  Notation mval := (@mval N pp). Notation okrows := (@okrows N pp). Notation digR := (@digR N pp). Notation gad := (@gad N pp).
  Add Ring R_ring8 : (@R_ring_theory N).

  Definition cfam (c : nat -> R) (i : mi) : R := match i with MQ j => c j | MP _ => R0 end.

  (** [ds] are digits, the NTT rows of integer polynomials [D k] of size at most DB, that recombine to [c] modulo Q_0..Q_level *)
  Definition digits level (c : nat -> R) (DB : Z) (ds : swk N) (D : nat -> R) : Prop :=
    (beta pp level <= length ds)%nat /\ forall k, (k < beta pp level)%nat ->
      bnd (D k) DB /\
      (forall i, vi pp level i -> canon (md pp i) (fqp (nth k ds dQP) i) /\ rep (md pp i) (fqp (nth k ds dQP) i) (D k)) /\
      (forall j, (k * alpha pp <= j < (k + 1) * alpha pp)%nat -> (j <= level)%nat -> eqm (mq (Qi pp j)) (D k) (c j)).

  Lemma beta_mono2 level L : (level <= L)%nat -> (L < length (Qm pp))%nat -> (beta pp level <= beta pp L)%nat.
  Proof.
    intros H HL. pose proof (wf_alpha _ _ WF). pose proof (wf_Q _ _ WF).
    destruct (beta_exact level (alpha pp)) as [_ A]; try lia. destruct (beta_exact L (alpha pp)) as [_ B]; try lia. unfold beta. nia.
  Qed.

  Lemma Decompose_digits L level (a : poly N) : (level <= L)%nat -> (L < length (Qm pp))%nat -> okrows L (inv_form pp L a) ->
    exists ds, Decompose pp L a = Ok ds /\ length ds = beta pp L /\
      digits level (row (inv_form pp L a)) (dig_bound pp L) ds (fun k => digR L k (inv_form pp L a)).
  Proof.
    intros H HL A. exists (digs pp L (inv_form pp L a)). split; [apply Decompose_ok; assumption|]. pose proof (beta_mono2 level L H HL) as BM.
    assert (LD : length (digs pp L (inv_form pp L a)) = beta pp L) by (unfold digs; rewrite map_length, seq_length; reflexivity).
    split; [exact LD|]. split; [lia|]. intros k Hk. split; [apply digR_bnd; trivial; lia|]. split.
    - intros i V. assert (V' : vi pp L i) by (destruct i; cbn in *; lia).
      unfold digs. rewrite (nth_map' _ _ _ 0%nat) by (rewrite seq_length; lia). rewrite seq_nth by lia. cbn [plus].
      rewrite fqp_dig by assumption. pose proof (okmod_md pp WF L i HL V') as K. split; [apply ntt_canon; assumption|]. apply rep_ntt. assumption.
    - intros j B Hj. apply digR_cong; trivial; lia.
  Qed.

  Lemma digits_ext level c c' DB ds D : (forall j, (j <= level)%nat -> eqm (mq (Qi pp j)) (c j) (c' j)) -> digits level c DB ds D -> digits level c' DB ds D.
  Proof.
    intros H [A B]. split; [exact A|]. intros k Hk. destruct (B k Hk) as (B1 & B2 & B3). split; [exact B1|]. split; [exact B2|].
    intros j Hj Hl. rewrite <- H by exact Hl. apply B3; assumption.
  Qed.
  Lemma digits_bound level c DB DB' ds D : DB <= DB' -> digits level c DB ds D -> digits level c DB' ds D.
  Proof.
    intros H [A B]. split; [exact A|]. intros k Hk. destruct (B k Hk) as (B1 & B2 & B3). split; [apply (bnd_le _ _ _ B1 H)|]. split; [exact B2|exact B3].
  Qed.

  (** a digit is determined on the rows that are read *)
  Lemma mac_digits_ext level (bg ds ds' : swk N) : length ds = length ds' ->
    (forall k i, (k < length ds)%nat -> vi pp level i -> fqp (nth k ds dQP) i = fqp (nth k ds' dQP) i) -> mac_digits pp level bg ds = mac_digits pp level bg ds'.
  Proof.
    intros L H. unfold mac_digits. rewrite <- L. remember (length ds) as n eqn:En.
    assert (G : forall m (ds ds' : swk N) acc, length ds = length ds' -> (forall k i, (k < length ds)%nat -> vi pp level i -> fqp (nth k ds dQP) i = fqp (nth k ds' dQP) i) ->
      rfold (fun acc id => let '(i, d) := id in k <- idx bg i ;; Ok (if (i =? 0)%nat then lvl2 pp level r_mont k d else lvl3 pp level r_mont_add k d acc)) (combine (seq m (length ds)) ds) acc
      = rfold (fun acc id => let '(i, d) := id in k <- idx bg i ;; Ok (if (i =? 0)%nat then lvl2 pp level r_mont k d else lvl3 pp level r_mont_add k d acc)) (combine (seq m (length ds)) ds') acc).
    { clear. intros m ds. revert m. induction ds as [|d ds IH]; intros m [|d' ds'] acc L H; try discriminate; [reflexivity|]. cbn [length seq combine rfold].
      destruct (idx bg m) as [key|]; cbn [rbind]; [|reflexivity].
      assert (HD : forall i, vi pp level i -> fqp d i = fqp d' i) by (intros i V; apply (H 0%nat i); [cbn; lia|assumption]).
      assert (EQ : forall j, (j <= level)%nat -> row (qpQ d) j = row (qpQ d') j) by (intros j Hj; apply (HD (MQ j)); exact Hj).
      assert (EP : forall j, (j < length (Pm pp))%nat -> row (qpP d) j = row (qpP d') j) by (intros j Hj; apply (HD (MP j)); exact Hj).
      assert (E : (if (m =? 0)%nat then lvl2 pp level r_mont key d else lvl3 pp level r_mont_add key d acc) = (if (m =? 0)%nat then lvl2 pp level r_mont key d' else lvl3 pp level r_mont_add key d' acc)).
      { destruct (m =? 0)%nat; unfold lvl2, lvl3, lvlQ2, lvlQ3; f_equal; apply tab_ext; intros j Hj; (rewrite EQ by lia) || (rewrite EP by lia); reflexivity. }
      rewrite E. apply IH; [cbn in L; lia|]. intros k i Hk V. apply (H (S k) i); [cbn; lia|assumption]. }
    subst n. apply G; assumption.
  Qed.

  Theorem hoist_gen level (ah bg : swk N) (f : nat -> mi -> R) c DB D : (level < length (Qm pp))%nat -> digits level c DB ah D -> (beta pp level <= length bg)%nat ->
    (forall k, (k < beta pp level)%nat -> mval level (nth k bg dQP) (f k)) ->
    exists out Rm, ExternalProductHoisted pp level ah bg = Ok out /\ length out = S level /\ (forall j, (j <= level)%nat -> canon (Qi pp j) (row out j)) /\
      bnd Rm (slack (Pprod pp)) /\
      forall i, vi pp level i -> eqm (qmod pp i) (smul (Pprod pp) (frow out i)) (sub (Lsum (seq 0 (beta pp level)) (fun k => mul (f k i) (D k))) Rm).
  Proof.
    intros HL [LA A] LB M. unfold ExternalProductHoisted.
    rewrite (rmapM_map _ (fun k => nth k ah dQP)) by (intros k Hk; apply in_seq in Hk; apply idx_nth; lia). cbn [rbind].
    rewrite (mac_digits_ext level bg _ (map (fun k => dig_qp pp level (D k)) (seq 0 (beta pp level)))).
    - destruct (mac_ok pp WF level bg f D HL LB M) as (acc & E & F). rewrite E. cbn [rbind].
      apply (rescaleP_ok pp WF level acc (fun i => Lsum (seq 0 (beta pp level)) (fun k => mul (f k i) (D k))) HL F).
    - rewrite !map_length. reflexivity.
    - intros k i Hk V. rewrite map_length, seq_length in Hk. rewrite !(nth_map' _ _ _ 0%nat) by (rewrite seq_length; assumption). rewrite seq_nth by assumption. cbn [plus].
      rewrite fqp_dig by assumption. destruct (A k Hk) as (_ & A2 & _). destruct (A2 i V) as [C1 C2].
      pose proof (okmod_md pp WF level i HL V) as K. apply (canon_eqm (md pp i)); [apply K|assumption|apply ntt_canon; assumption|].
      rewrite <- (ntt_eqm (md pp i) (proj1 K) _ _ C2). symmetry. apply ntt_intt. apply K.
  Qed.

  Lemma hoist_gadget level c DB ds D (b : R) (e : nat -> R) i : (level < length (Qm pp))%nat -> digits level c DB ds D -> vi pp level i ->
    eqm (qmod pp i) (Lsum (seq 0 (beta pp level)) (fun k => mul (add (e k) (mul (gad k i) b)) (D k)))
      (add (smul (Pprod pp) (mul (cfam c i) b)) (Lsum (seq 0 (beta pp level)) (fun k => mul (e k) (D k)))).
  Proof.
    intros HL [_ A] V.
    rewrite (Lsum_ext _ _ (fun k => add (mul (gad k i) (mul (D k) b)) (mul (e k) (D k)))) by (intros; ring).
    rewrite Lsum_add. apply eqm_add; [|reflexivity].
    apply (gad_sum pp WF level i (fun k => mul (D k) b)); trivial.
    intros k j -> K B. destruct (A k K) as (_ & _ & A3). cbn [cfam]. apply eqm_mul; [apply A3; assumption|reflexivity].
  Qed.
  Lemma dsum_bnd level c DB ds D (e : nat -> R) B : digits level c DB ds D -> (forall k, (k < beta pp level)%nat -> bnd (e k) B) ->
    bnd (Lsum (seq 0 (beta pp level)) (fun k => mul (e k) (D k))) (Z.of_nat (beta pp level) * (Z.of_nat N * B * DB)).
  Proof.
    intros [_ A] H. rewrite <- (seq_length (beta pp level) 0) at 2. apply Lsum_bnd. intros k Hk. apply in_seq in Hk.
    apply bnd_mul; [apply H; lia|]. apply A. lia.
  Qed.

  (** two external products on the same digits: a key for s under the mask t f *)
  Theorem hoist_switch level (ah kb ka : swk N) c DB D (s t : R) (e : nat -> R) (f : nat -> mi -> R) B T : (level < length (Qm pp))%nat ->
    digits level c DB ah D -> (beta pp level <= length kb)%nat -> (beta pp level <= length ka)%nat ->
    (forall k, (k < beta pp level)%nat -> mval level (nth k kb dQP) (fun i => sub (add (e k) (mul (gad k i) s)) (mul t (f k i)))) ->
    (forall k, (k < beta pp level)%nat -> mval level (nth k ka dQP) (f k)) ->
    (forall k, (k < beta pp level)%nat -> bnd (e k) B) -> bnd t T ->
    exists ob oa E, ExternalProductHoisted pp level ah kb = Ok ob /\ ExternalProductHoisted pp level ah ka = Ok oa /\ length ob = S level /\ length oa = S level /\
      (forall j, (j <= level)%nat -> canon (Qi pp j) (row ob j) /\ canon (Qi pp j) (row oa j)) /\
      bnd E ((Z.of_nat (beta pp level) * (Z.of_nat N * B * DB) + slack (Pprod pp) + Z.of_nat N * T * slack (Pprod pp)) / Pprod pp) /\
      forall j, (j <= level)%nat -> eqm (mq (Qi pp j)) (add (row ob j) (mul t (row oa j))) (add (mul (c j) s) E).
  Proof.
    intros L DG LB LA MB MA HB HT.
    destruct (hoist_gen level ah kb _ c DB D L DG LB MB) as (ob & R1 & X1 & LO1 & CO1 & BR1 & H1).
    destruct (hoist_gen level ah ka f c DB D L DG LA MA) as (oa & R2 & X2 & LO2 & CO2 & BR2 & H2).
    set (ES := Lsum (seq 0 (beta pp level)) (fun k => mul (e k) (D k))).
    destruct (div_P pp WF level (fun i => add (frow ob i) (mul t (frow oa i))) (fun i => mul (cfam c i) s)
                (sub (sub ES R1) (mul t R2)) (Z.of_nat (beta pp level) * (Z.of_nat N * B * DB) + slack (Pprod pp) + Z.of_nat N * T * slack (Pprod pp)) L) as (EE & E1 & _ & E2).
    - intros i V. cbv beta.
      replace (smul (Pprod pp) (add (frow ob i) (mul t (frow oa i)))) with (add (smul (Pprod pp) (frow ob i)) (mul t (smul (Pprod pp) (frow oa i))))
        by (rewrite !smul_cst; ring).
      rewrite (H1 i V), (H2 i V).
      rewrite (Lsum_ext _ (fun k => mul (sub (add (e k) (mul (gad k i) s)) (mul t (f k i))) (D k))
                 (fun k => sub (mul (add (e k) (mul (gad k i) s)) (D k)) (mul t (mul (f k i) (D k))))) by (intros; ring).
      rewrite Lsum_sub, Lsum_mul_l, (hoist_gadget level c DB ah D) by assumption. fold ES.
      match goal with |- eqm _ ?l ?r => replace l with r by ring end. reflexivity.
    - apply bnd_sub; [apply bnd_sub; [apply (dsum_bnd level c DB ah); assumption|assumption]|]. apply bnd_mul; assumption.
    - exists ob, oa, EE. split; [exact X1|]. split; [exact X2|]. split; [exact LO1|]. split; [exact LO2|]. split; [intros j Hj; split; auto|].
      split; [exact E1|]. exact E2.
  Qed.

  (** the plain external product is decomposition followed by the hoisted one *)
  Lemma rmapM_len {A B} (f : A -> res B) l r : rmapM f l = Ok r -> length r = length l.
  Proof.
    revert r. induction l as [|x l IH]; intros r; cbn; [intros [= <-]; reflexivity|]. destruct (f x); cbn; [|discriminate].
    destruct (rmapM f l) as [t|]; cbn; [|discriminate]. intros [= <-]. cbn. rewrite (IH t eq_refl). reflexivity.
  Qed.
  Theorem ext_is_hoisted level (a : poly N) bg : ExternalProduct pp level a bg = (ds <- Decompose pp level a ;; ExternalProductHoisted pp level ds bg).
  Proof.
    unfold ExternalProduct. destruct (Decompose pp level a) as [ds|] eqn:E; cbn [rbind]; [|reflexivity].
    unfold Decompose in E. apply rmapM_len in E. rewrite seq_length in E. unfold ExternalProductHoisted.
    rewrite (rmapM_map _ (fun k => nth k ds dQP)) by (intros k Hk; apply in_seq in Hk; apply idx_nth; lia). cbn [rbind].
    replace (map (fun k => nth k ds dQP) (seq 0 (beta pp level))) with ds; [reflexivity|]. rewrite <- E. symmetry. apply (tab_nth ds dQP).
  Qed.
End Dig.
