(** Digits modulo R = Q*QMul kept modulo Q*P (mkbfv/keyswitch.go:57-111) and the sums over both halves of a key. *)
From Verif Require Import Base IdSetModel KeySetModel NumTheory Negacyclic Ntt Word BasisExt BasisExtProofs DecompProofs Rows RlweModel SchemeSpec ExtProd ExtProps KeyGenModel Galois KeyGenProofs CtModel KeySwitchModel BfvModel BfvMulModel BfvConv BfvGadget Digits.
From Coq Require Import Znumtheory Setoid Morphisms.
Open Scope Z_scope.

(** a lower output level with the same digit length gives a prefix of the output *)
Lemma rmapM_prefix {A} (f : nat -> res A) m m' l : (m' <= m)%nat -> rmapM f (seq 0 m) = Ok l -> rmapM f (seq 0 m') = Ok (firstn m' l).
Proof.
  intros H E. replace m with (m' + (m - m'))%nat in E by lia. rewrite seq_app in E.
  assert (G : forall (l1 l2 : list nat) r, rmapM f (l1 ++ l2) = Ok r -> rmapM f l1 = Ok (firstn (length l1) r)).
  { clear. induction l1 as [|x l1 IH]; intros l2 r E; [reflexivity|]. cbn [app rmapM length] in *. destruct (f x); cbn [rbind] in *; [|discriminate].
    destruct (rmapM f (l1 ++ l2)) as [t|] eqn:E2; cbn [rbind] in *; [|discriminate]. injection E as <-. rewrite (IH _ _ E2). reflexivity. }
  apply G in E. rewrite seq_length in E. exact E.
Qed.
Lemma firstn_repeat' {A} (x : A) m : forall m', (m' <= m)%nat -> firstn m' (repeat x m) = repeat x m'.
Proof. induction m as [|m IH]; intros m' H; destruct m'; try lia; [reflexivity..|]. cbn [repeat firstn]. rewrite IH by lia. reflexivity. Qed.
Lemma DecomposeAndSplit_prefix tab Q P lQ lQ' lP al i g rows oq op : (lQ' <= lQ)%nat -> decomp_lvl lQ' al i = decomp_lvl lQ al i ->
  DecomposeAndSplit tab Q P lQ lP al i g rows = Ok (oq, op) -> DecomposeAndSplit tab Q P lQ' lP al i g rows = Ok (firstn (S lQ') oq, op).
Proof.
  intros H D. unfold DecomposeAndSplit. rewrite D. destruct (decomp_lvl lQ al i =? -1).
  - destruct (idx rows (i * al)) as [x|]; cbn [rbind]; [|discriminate]. intros [= <- <-]. do 2 f_equal.
    change (x :: repeat x lQ) with (repeat x (S lQ)). change (x :: repeat x lQ') with (repeat x (S lQ')). symmetry. apply firstn_repeat'. lia.
  - destruct (idx tab (g * al - 2)) as [t1|]; cbn [rbind]; [|discriminate]. destruct (idx t1 i) as [t2|]; cbn [rbind]; [|discriminate].
    destruct (idx t2 (Z.to_nat (decomp_lvl lQ al i))) as [params|]; cbn [rbind]; [|discriminate]. destruct (reconstructRNS _ _ _) as [[y v]|]; cbn [rbind]; [|discriminate].
    destruct (rmapM _ (seq 0 (S lQ))) as [r|] eqn:E; cbn [rbind]; [|discriminate]. intros E2. rewrite (rmapM_prefix _ (S lQ) (S lQ') r ltac:(lia) E). cbn [rbind].
    destruct (rmapM _ (seq 0 (S lP))) as [r'|]; cbn [rbind] in *; [|discriminate]. injection E2 as <- <-. reflexivity.
Qed.

Lemma Lsum_double {N} m (f : nat -> R N) : Lsum (seq 0 (m + m)) f = Lsum (seq 0 m) (fun k => add (f k) (f (m + k)%nat)).
Proof.
  rewrite seq_app, Lsum_app, Lsum_add. f_equal. cbn [plus]. rewrite <- (Lsum_map (fun k => (m + k)%nat) (seq 0 m) f). f_equal.
  assert (G : forall a len s, map (fun k => (a + k)%nat) (seq s len) = seq (a + s) len).
  { clear. intros a. induction len as [|len IH]; intros s; [reflexivity|]. cbn [seq map]. f_equal. rewrite IH. f_equal. lia. }
  rewrite G, Nat.add_0_r. reflexivity.
Qed.

Section Dig.
  Context {N : nat} (b : bparams) (WB : wfb N b).
  Notation R := (R N). Notation ct := (ctT N).
  Notation n := (length (bQ b)). Notation al := (alpha (ppQ b)). Notation pp := (ppQ b). Notation L := (maxLevel (ppQ b)). Notation be := (bbeta b).
  Hypothesis HD : (n mod al = 0)%nat.
  Let WF : wfp N pp := wf_ppQ b WB.
  Add Ring R_ring31 : (@R_ring_theory N).

  Definition pick (x1 x2 : swk N) (k : nat) : polyQP N := if (k <? be)%nat then nth k x1 dQP else nth (k - be) x2 dQP.
  Lemma pick_lo x1 x2 k : (k < be)%nat -> pick x1 x2 k = nth k x1 dQP.
  Proof using. clear HD. intros H. unfold pick. destruct (Nat.ltb_spec k be); [reflexivity|lia]. Qed.
  Lemma pick_hi x1 x2 k : pick x1 x2 (be + k) = nth k x2 dQP.
  Proof using. clear HD. unfold pick. destruct (Nat.ltb_spec (be + k) be); [lia|]. f_equal. lia. Qed.

  (** a bound of the digits of any polynomial whose rows stay below 6q *)
  Definition rdig_bound : Z := slack (6 * maxl (map (Rk b) (seq 0 (be + be)))).

  (** [d1], [d2] hold the NTT rows of integer polynomials D k, k < 2 beta, with D k = X modulo the k-th block of R *)
  Definition bdigits (d1 d2 : swk N) (X : R) (DB : Z) (D : nat -> R) : Prop :=
    (be <= length d1)%nat /\ (be <= length d2)%nat /\ forall k, (k < be + be)%nat -> bnd (D k) DB /\
      (forall i, vi pp L i -> canon (md pp i) (fqp (pick d1 d2 k) i) /\ rep (md pp i) (fqp (pick d1 d2 k) i) (D k)) /\
      (forall j, (k * al <= j < (k + 1) * al)%nat -> eqm (nth j (Rs b) 0) (D k) X).

  Lemma L_eq : L = (n - 1)%nat. Proof. reflexivity. Qed.
  Lemma L_n : S L = n. Proof. rewrite L_eq. apply (n1 b WB). Qed.
  Lemma L_Qm : (L < length (Qm pp))%nat. Proof using WB. clear HD. pose proof L_n. cbn [ppQ Qm]. lia. Qed.
  Lemma dl_same k : (k < be + be)%nat -> decomp_lvl L al k = decomp_lvl (n + n - 1) al k.
  Proof.
    intros H. pose proof (al_pos b WB) as A. pose proof (beta_n b WB HD) as BN. pose proof L_n as LN. pose proof (wb_32 _ _ WB).
    unfold decomp_lvl.
    assert (M1 : (L mod al = al - 1)%nat) by (symmetry; apply (Nat.mod_unique L al (be - 1)); [lia|]; pose proof (bbeta_pos b WB HD); nia).
    assert (M2 : ((n + n - 1) mod al = al - 1)%nat) by (symmetry; apply (Nat.mod_unique _ al (be + be - 1)); [lia|]; pose proof (bbeta_pos b WB HD); nia).
    rewrite M1, M2. destruct (al * (k + 1) - 1 <? L)%nat, (al * (k + 1) - 1 <? n + n - 1)%nat; lia.
  Qed.
  Lemma blk_R k : (k < be + be)%nat -> blk al (n + n - 1) k (Qs (ppR b)) = Rblk b k /\ blk_len al (n + n - 1) k = al.
  Proof.
    intros H. pose proof (Rblk_full b WB HD k H) as F. assert (E : blk_len al (n + n - 1) k = al) by (unfold blk_len; lia). split; [|exact E]. unfold blk. rewrite E. reflexivity.
  Qed.

  Definition DR k (aR : list R) : R := digR (ppR b) (n + n - 1) k aR.
  Lemma row_lt (aR : list R) X j x : rowsR b aR X -> (j < n + n)%nat -> (x < N)%nat -> 0 <= nth j (col aR x) 0 < 6 * nth j (Qs (ppR b)) 0.
  Proof. intros [L1 L2] Hj Hx. rewrite col_nth by lia. fold (Rs b). rewrite (Rs_nth b WB) by assumption. apply L2; assumption. Qed.

  Lemma DecomposeSingle_R k (aR : list R) X : rowsR b aR X -> (k < be + be)%nat ->
    DecomposeSingleNTT (ppR b) L k aR = Ok (dig_qp pp L (DR k aR)).
  Proof.
    intros RX K. pose proof RX as [LA RA]. unfold DecomposeSingleNTT. pose proof L_n as LN. destruct (Nat.leb_spec (length aR) L) as [X0|_]; [lia|].
    pose proof (wb_R _ _ WB) as WR. pose proof (al_pos b WB) as WA. pose proof (Rblk_full b WB HD k K) as BF. pose proof (wb_32 _ _ WB) as B32.
    assert (LQR : length (Qs (ppR b)) = (n + n)%nat) by (apply (Rs_len b WB)).
    destruct (colmap_ok (N := N) (S L + length (Pm (ppR b))) (fun x => '(oq, op) <- DecomposeAndSplit (NewDecomposer (Qs (ppR b)) (Ps (ppR b)) (gam (ppR b))) (Qs (ppR b)) (Ps (ppR b))
                             L (levelP (ppR b)) (alpha (ppR b)) k (gam (ppR b)) (col aR x) ;; Ok (oq ++ op))
       (fun x o => (forall j, (j <= L)%nat -> eqz (mq (Qi pp j)) (nth j o 0) (co (DR k aR) x)) /\
                   (forall j, (j < length (Pm pp))%nat -> eqz (mq (Pi pp j)) (nth (S L + j) o 0) (co (DR k aR) x)))) as (rows & E & LR & F).
    - intros x Hx. pose proof (wf_P32 _ _ WR) as P32.
      destruct (DecomposeAndSplit_words (Qs (ppR b)) (Ps (ppR b)) (gam (ppR b)) (alpha (ppR b)) (n + n - 1) k (col aR x) (wf_base _ _ WR) (wf_alpha _ _ WR) (wf_gam _ _ WR))
        as (oq & op & E & L1 & L2 & O1 & O2).
      + rewrite len_Ps. apply (gam_alpha_le _ WR).
      + rewrite len_Ps. apply (wf_div _ _ WR).
      + rewrite LQR. lia.
      + rewrite len_Ps. lia.
      + rewrite LQR. lia.
      + change (alpha (ppR b)) with al. nia.
      + rewrite col_length. lia.
      + intros j Hj. pose proof (row_lt aR X j x RX ltac:(lia) Hx) as [A B]. split; [exact A|]. destruct (Rs_okq b WB j ltac:(lia)) as [_ C]. fold (Rs b) in B. unfold W. lia.
      + apply (DecomposeAndSplit_prefix _ _ _ _ L) in E; [|lia|change (alpha (ppR b)) with al; apply dl_same; assumption].
        rewrite len_Ps in E. fold (levelP (ppR b)) in E. rewrite E. cbn [rbind]. eexists. split; [reflexivity|]. unfold DR, digR. rewrite co_mkR by assumption.
        assert (LF : length (firstn (S L) oq) = S L) by (rewrite firstn_length; lia). split.
        * intros j Hj. rewrite app_nth1 by lia. rewrite nth_firstn by lia. specialize (O1 j ltac:(lia)). rewrite <- (nth_Q b j) by lia.
          destruct O1 as [_ O1]. rewrite Rs_eq in O1 at 1. rewrite app_nth1 in O1 by (rewrite (Qs_len b); lia). exact O1.
        * intros j Hj. rewrite app_nth2 by lia. rewrite LF. replace (S L + j - S L)%nat with j by lia. rewrite <- nth_Ps by lia. apply (O2 j). rewrite len_Ps. assumption.
    - rewrite E. cbn [rbind]. f_equal. unfold lvl1, dig_qp. cbn [qpQ qpP]. unfold lvlQ1. f_equal.
      + apply tab_ext. intros j Hj. rewrite (Qi_R b) by lia. apply ntt_eqm; [apply (okmod_md pp WF L (MQ j) L_Qm ltac:(cbn; lia))|].
        apply eqm_co. intros x Hx. destruct (F x Hx) as (o & _ & [O1 _] & O). unfold row in *. rewrite nth_firstn by lia. rewrite O by lia. apply O1. lia.
      + change (Pm (ppR b)) with (Pm pp) in *. apply tab_ext. intros j Hj. change (Pi (ppR b) j) with (Pi pp j). apply ntt_eqm; [apply (okmod_md pp WF L (MP j) L_Qm Hj)|].
        apply eqm_co. intros x Hx. destruct (F x Hx) as (o & _ & [_ O2] & O). unfold row in *. rewrite nth_skipn. rewrite O by lia. apply O2. exact Hj.
  Qed.

  Lemma DR_ok k (aR : list R) X : rowsR b aR X -> (k < be + be)%nat ->
    bnd (DR k aR) rdig_bound /\ forall j, (k * al <= j < (k + 1) * al)%nat -> eqm (nth j (Rs b) 0) (DR k aR) X.
  Proof.
    intros RX K. pose proof RX as [LA RA]. pose proof (Rblk_full b WB HD k K) as BF. pose proof (al_pos b WB) as WA. pose proof L_n as LN. pose proof (wb_32 _ _ WB) as B32.
    assert (G : forall x, (x < N)%nat -> (forall i, (i < blk_len al (n + n - 1) k)%nat -> eqz (nth (k * al + i) (Qs (ppR b)) 0) (co (DR k aR) x) (nth (k * al + i) (col aR x) 0)) /\
       Z.abs (co (DR k aR) x) <= slack (6 * Rk b k)).
    { intros x Hx. destruct (dig_int_6 (Qs (ppR b)) al (n + n - 1) k (col aR x)) as [G1 G2].
      - exact (Rs_base b WB).
      - exact WA.
      - change (Qs (ppR b)) with (Rs b). rewrite (Rs_len b WB). lia.
      - nia.
      - rewrite col_length. lia.
      - intros j Hj. apply (row_lt aR X); trivial. lia.
      - unfold DR, digR. rewrite co_mkR by assumption. split; [exact G1|]. apply slack_ok. rewrite (proj1 (blk_R k K)) in G2. exact G2. }
    split.
    - intros x Hx. destruct (G x Hx) as [_ G2]. etransitivity; [exact G2|]. unfold rdig_bound. apply slack_mono. apply Z.mul_le_mono_nonneg_l; [lia|].
      apply maxl_ge. apply in_map_iff. exists k. split; [reflexivity|]. apply in_seq. lia.
    - intros j Hj. destruct (RA j ltac:(lia)) as [_ E]. rewrite <- (Rs_nth b WB) in E by lia. rewrite <- E. apply eqm_co. intros x Hx. destruct (G x Hx) as [G1 _].
      specialize (G1 (j - k * al)%nat ltac:(rewrite (proj2 (blk_R k K)); lia)). replace (k * al + (j - k * al))%nat with j in G1 by lia. rewrite col_nth in G1 by lia. exact G1.
  Qed.

  Theorem DecomposeBFV_ok (aR : list R) X : rowsR b aR X ->
    exists d1 d2, DecomposeBFV b L aR = Ok (d1, d2) /\ bdigits d1 d2 X rdig_bound (fun k => DR k aR).
  Proof.
    intros RX. unfold DecomposeBFV. fold be.
    rewrite (rmapM_map _ (fun k => dig_qp pp L (DR k aR))) by (intros k Hk; apply in_seq in Hk; apply (DecomposeSingle_R k aR X RX); lia).
    cbn [rbind]. set (ds := map (fun k => dig_qp pp L (DR k aR)) (seq 0 (2 * be))).
    assert (LD : length ds = (be + be)%nat) by (unfold ds; rewrite map_length, seq_length; lia).
    exists (firstn be ds), (skipn be ds). split; [reflexivity|]. split; [rewrite firstn_length; lia|]. split; [rewrite skipn_length; lia|].
    intros k K. destruct (DR_ok k aR X RX K) as [B1 B2]. split; [exact B1|]. split; [|exact B2].
    assert (EP : pick (firstn be ds) (skipn be ds) k = dig_qp pp L (DR k aR)).
    { transitivity (nth k ds dQP).
      - unfold pick. destruct (Nat.ltb_spec k be); [apply nth_firstn; assumption|]. rewrite nth_skipn. f_equal. lia.
      - unfold ds. rewrite (nth_map' _ _ _ 0%nat) by (rewrite seq_length; lia). rewrite seq_nth by lia. reflexivity. }
    intros i V. rewrite EP, fqp_dig by assumption. pose proof (okmod_md pp WF L i L_Qm V) as K0. split; [apply ntt_canon; assumption|apply rep_ntt; assumption].
  Qed.

  (** ** multiply-accumulate over both halves *)
  Lemma macBFV_ok (g1 g2 a1 a2 : swk N) (f : nat -> mi -> R) X DB D : bdigits a1 a2 X DB D -> (be <= length g1)%nat -> (be <= length g2)%nat ->
    (forall k, (k < be + be)%nat -> mval pp L (pick g1 g2 k) (f k)) ->
    exists acc, macBFV b L g1 g2 a1 a2 = Ok acc /\
      forall i, vi pp L i -> canon (md pp i) (fqp acc i) /\ rep (md pp i) (fqp acc i) (Lsum (seq 0 (be + be)) (fun k => mul (f k i) (D k))).
  Proof.
    intros (LA1 & LA2 & A) LG1 LG2 M. unfold macBFV. fold be. pose proof (bbeta_pos b WB HD) as BP.
    set (st := fun acc i => _).
    assert (G : forall m, (m < be)%nat -> exists acc, rfold st (seq 0 (S m)) (QP nil nil) = Ok acc /\
      forall i, vi pp L i -> canon (md pp i) (fqp acc i) /\ rep (md pp i) (fqp acc i) (Lsum (seq 0 (S m)) (fun k => add (mul (f k i) (D k)) (mul (f (be + k)%nat i) (D (be + k)%nat))))).
    { assert (T : forall m acc0 (z : mi -> R), (m < be)%nat -> (m = 0%nat \/ forall i, vi pp L i -> canon (md pp i) (fqp acc0 i) /\ rep (md pp i) (fqp acc0 i) (z i)) ->
         exists acc, st acc0 m = Ok acc /\ forall i, vi pp L i -> canon (md pp i) (fqp acc i) /\
           rep (md pp i) (fqp acc i) (add (if (m =? 0)%nat then R0 else z i) (add (mul (f m i) (D m)) (mul (f (be + m)%nat i) (D (be + m)%nat))))).
      { intros m acc0 z Hm HZ. unfold st. rewrite !(idx_nth _ _ dQP) by lia. cbn [rbind]. eexists. split; [reflexivity|]. intros i V.
        pose proof (okmod_md pp WF L i L_Qm V) as OM. rewrite fqp_lvl3 by assumption.
        destruct (A m ltac:(lia)) as (_ & A1 & _). destruct (A1 i V) as [C1 C2]. rewrite pick_lo in C1, C2 by assumption. destruct (M m ltac:(lia) i V) as [M1 M2]. rewrite pick_lo in M1, M2 by assumption.
        destruct (A (be + m)%nat ltac:(lia)) as (_ & A2 & _). destruct (A2 i V) as [C3 C4]. rewrite pick_hi in C3, C4. destruct (M (be + m)%nat ltac:(lia) i V) as [M3 M4]. rewrite pick_hi in M3, M4.
        assert (W1 := canon_wrd _ _ (proj2 OM) C1). assert (W3 := canon_wrd _ _ (proj2 OM) C3).
        set (acc1 := if (m =? 0)%nat then _ else _).
        assert (I : canon (md pp i) (fqp acc1 i) /\ rep (md pp i) (fqp acc1 i) (add (if (m =? 0)%nat then R0 else z i) (mul (f m i) (D m)))).
        { unfold acc1. destruct (Nat.eqb_spec m 0) as [E0|E0].
          - rewrite fqp_lvl2 by assumption. split; [apply r_mont_ok; [apply OM|assumption|assumption]|].
            apply (rep_eqm _ _ (mul (f m i) (D m))); [apply rep_mont; trivial|]. apply eqm_eq. ring.
          - destruct HZ as [HZ|HZ]; [contradiction|]. destruct (HZ i V) as [Z1 Z2]. rewrite fqp_lvl3 by assumption.
            destruct (rep_mont_add (md pp i) _ _ _ _ _ _ OM M1 W1 (canon_inr _ _ Z1) M2 C2 Z2) as [Y1 Y2]. split; [exact Y1|]. apply (rep_eqm _ _ _ _ Y2). apply eqm_eq. ring. }
        destruct I as [I1 I2]. destruct (rep_mont_add (md pp i) _ _ _ _ _ _ OM M3 W3 (canon_inr _ _ I1) M4 C4 I2) as [Y1 Y2]. split; [exact Y1|]. apply (rep_eqm _ _ _ _ Y2). apply eqm_eq. ring. }
      induction m as [|m IH]; intros Hm.
      - destruct (T 0%nat (QP nil nil) (fun _ => R0) Hm (or_introl eq_refl)) as (acc & E & F). exists acc. cbn [seq rfold]. rewrite E. cbn [rbind]. split; [reflexivity|].
        intros i V. destruct (F i V) as [F1 F2]. split; [exact F1|]. apply (rep_eqm _ _ _ _ F2). apply eqm_eq. cbn [Lsum Nat.eqb seq]. ring.
      - destruct (IH ltac:(lia)) as (acc & E & F). destruct (T (S m) acc _ Hm (or_intror F)) as (acc' & E' & F'). exists acc'.
        rewrite (seq_S (S m)). rewrite rfold_app, E. cbn [rbind rfold plus]. rewrite E'. cbn [rbind]. split; [reflexivity|].
        intros i V. destruct (F' i V) as [F1 F2]. split; [exact F1|]. apply (rep_eqm _ _ _ _ F2). apply eqm_eq. rewrite Lsum_app. cbn [Lsum Nat.eqb]. ring. }
    destruct (G (be - 1)%nat ltac:(lia)) as (acc & E & F). replace (S (be - 1)) with be in * by lia. exists acc. split; [exact E|].
    intros i V. rewrite Lsum_double. apply F. assumption.
  Qed.

  Theorem ExtBFVHoisted_ok (g1 g2 a1 a2 : swk N) (f : nat -> mi -> R) X DB D : bdigits a1 a2 X DB D -> (be <= length g1)%nat -> (be <= length g2)%nat ->
    (forall k, (k < be + be)%nat -> mval pp L (pick g1 g2 k) (f k)) ->
    exists out Rm, ExternalProductBFVHoisted b L a1 a2 g1 g2 = Ok out /\ length out = S L /\ (forall j, (j <= L)%nat -> canon (Qi pp j) (row out j)) /\
      bnd Rm (slack (Pprod pp)) /\
      forall i, vi pp L i -> eqm (qmod pp i) (smul (Pprod pp) (frow out i)) (sub (Lsum (seq 0 (be + be)) (fun k => mul (f k i) (D k))) Rm).
  Proof.
    intros HA L1 L2 M. unfold ExternalProductBFVHoisted. destruct (macBFV_ok g1 g2 a1 a2 f X DB D HA L1 L2 M) as (acc & E & F). rewrite E. cbn [rbind].
    apply (rescaleP_ok pp WF L acc (fun i => Lsum (seq 0 (be + be)) (fun k => mul (f k i) (D k))) L_Qm F).
  Qed.

  (** ** vectors x and y *)
  Lemma macAdd_ok (key ds acc : swk N) (f z : nat -> mi -> R) (D : nat -> R) : (be <= length key)%nat -> (be <= length ds)%nat -> length acc = be ->
    (forall k, (k < be)%nat -> mval pp L (nth k key dQP) (f k)) ->
    (forall k i, (k < be)%nat -> vi pp L i -> canon (md pp i) (fqp (nth k ds dQP) i) /\ rep (md pp i) (fqp (nth k ds dQP) i) (D k)) ->
    (forall k i, (k < be)%nat -> vi pp L i -> inr (md pp i) (fqp (nth k acc dQP) i) /\ rep (md pp i) (fqp (nth k acc dQP) i) (z k i)) ->
    exists x, macAdd pp L key ds acc = Ok x /\ length x = be /\
      forall k i, (k < be)%nat -> vi pp L i -> inr (md pp i) (fqp (nth k x dQP) i) /\ rep (md pp i) (fqp (nth k x dQP) i) (add (z k i) (mul (f k i) (D k))).
  Proof.
    intros LK LD LA HK HDs HA. unfold macAdd. fold be.
    rewrite (rmapM_map _ (fun i => lvl3 pp L r_mont_add (nth i key dQP) (nth i ds dQP) (nth i acc dQP))).
    2:{ intros i Hi. apply in_seq in Hi. rewrite !(idx_nth _ _ dQP) by lia. reflexivity. }
    eexists. split; [reflexivity|]. split; [rewrite map_length, seq_length; reflexivity|]. intros k i K V.
    rewrite (nth_map' _ _ _ 0%nat) by (rewrite seq_length; assumption). rewrite seq_nth by assumption. cbn [plus]. rewrite fqp_lvl3 by assumption.
    pose proof (okmod_md pp WF L i L_Qm V) as OK. destruct (HDs k i K V) as [D3 D4]. destruct (HK k K i V) as [M1 M2]. destruct (HA k i K V) as [A1 A2].
    destruct (rep_mont_add (md pp i) _ _ _ _ _ _ OK M1 (canon_wrd _ _ (proj2 OK) D3) A1 M2 D4 A2) as [Y1 Y2]. split; [apply canon_inr; assumption|]. apply (rep_eqm _ _ _ _ Y2). apply eqm_eq. ring.
  Qed.

  Lemma bGenVec_ok (s1 s2 : bRelinKey N -> swk N) h (op : ct) (rs : brlkset N) l (Xf : string -> R) DB (dsf : string -> swk N * swk N) (Df : string -> nat -> R) (kf : string -> bRelinKey N) (fam : string -> nat -> mi -> R) :
    (forall id, In id l -> bhdig b L h op id = Ok (dsf id) /\ bdigits (fst (dsf id)) (snd (dsf id)) (Xf id) DB (Df id) /\ brlk_get rs id = Ok (kf id) /\ (be <= length (s1 (kf id)))%nat /\ (be <= length (s2 (kf id)))%nat /\
       forall k, (k < be + be)%nat -> mval pp L (pick (s1 (kf id)) (s2 (kf id)) k) (fam id k)) ->
    exists x1 x2, bGenVec b L s1 s2 h op rs l = Ok (x1, x2) /\ length x1 = be /\ length x2 = be /\
      forall k, (k < be + be)%nat -> mval pp L (pick x1 x2 k) (fun i => Lsum l (fun id => mul (fam id k i) (Df id k))).
  Proof.
    intros H. unfold bGenVec. fold be. set (st := fun acc id => _).
    assert (G : forall l acc1 acc2 (z : nat -> mi -> R), (forall id, In id l -> bhdig b L h op id = Ok (dsf id) /\ bdigits (fst (dsf id)) (snd (dsf id)) (Xf id) DB (Df id) /\ brlk_get rs id = Ok (kf id) /\ (be <= length (s1 (kf id)))%nat /\ (be <= length (s2 (kf id)))%nat /\
         forall k, (k < be + be)%nat -> mval pp L (pick (s1 (kf id)) (s2 (kf id)) k) (fam id k)) ->
       length acc1 = be -> length acc2 = be -> (forall k i, (k < be + be)%nat -> vi pp L i -> inr (md pp i) (fqp (pick acc1 acc2 k) i) /\ rep (md pp i) (fqp (pick acc1 acc2 k) i) (z k i)) ->
       exists x1 x2, rfold st l (acc1, acc2) = Ok (x1, x2) /\ length x1 = be /\ length x2 = be /\
         forall k i, (k < be + be)%nat -> vi pp L i -> inr (md pp i) (fqp (pick x1 x2 k) i) /\ rep (md pp i) (fqp (pick x1 x2 k) i) (add (z k i) (Lsum l (fun id => mul (fam id k i) (Df id k))))).
    { clear H l. induction l as [|id l IH]; intros acc1 acc2 z H LA1 LA2 HA.
      - exists acc1, acc2. split; [reflexivity|]. split; [assumption|]. split; [assumption|]. intros k i K V. cbn [Lsum]. destruct (HA k i K V) as [H1 H2]. split; [exact H1|]. apply (rep_eqm _ _ _ _ H2). apply eqm_eq. ring.
      - cbn [rfold]. destruct (H id (or_introl eq_refl)) as (H1 & (HD1 & HD2 & HD3) & H3 & H4 & H4' & H5). unfold st at 1. rewrite H1. cbn [rbind]. destruct (dsf id) as [d1 d2]. cbn [fst snd] in *. rewrite H3. cbn [rbind].
        destruct (macAdd_ok (s1 (kf id)) d1 acc1 (fam id) z (Df id) H4 HD1 LA1) as (x1 & X1 & X2 & X3).
        { intros k K. specialize (H5 k ltac:(lia)). rewrite pick_lo in H5 by assumption. exact H5. }
        { intros k i K V. destruct (HD3 k ltac:(lia)) as (_ & Z & _). specialize (Z i V). rewrite pick_lo in Z by assumption. exact Z. }
        { intros k i K V. specialize (HA k i ltac:(lia) V). rewrite pick_lo in HA by assumption. exact HA. }
        destruct (macAdd_ok (s2 (kf id)) d2 acc2 (fun k => fam id (be + k)%nat) (fun k => z (be + k)%nat) (fun k => Df id (be + k)%nat) H4' HD2 LA2) as (x2 & Y1 & Y2 & Y3).
        { intros k K. specialize (H5 (be + k)%nat ltac:(lia)). rewrite pick_hi in H5. exact H5. }
        { intros k i K V. destruct (HD3 (be + k)%nat ltac:(lia)) as (_ & Z & _). specialize (Z i V). rewrite pick_hi in Z. exact Z. }
        { intros k i K V. specialize (HA (be + k)%nat i ltac:(lia) V). rewrite pick_hi in HA. exact HA. }
        rewrite X1. cbn [rbind]. rewrite Y1. cbn [rbind].
        destruct (IH x1 x2 (fun k i => add (z k i) (mul (fam id k i) (Df id k)))) as (w1 & w2 & W1 & W2 & W3 & W4); trivial.
        + intros; apply H; right; assumption.
        + intros k i K V. destruct (Nat.ltb_spec k be) as [C|C].
          * rewrite pick_lo by assumption. apply X3; assumption.
          * replace k with (be + (k - be))%nat by lia. rewrite pick_hi. apply Y3; [lia|assumption].
        + exists w1, w2. split; [exact W1|]. split; [exact W2|]. split; [exact W3|]. intros k i K V. destruct (W4 k i K V) as [Z1 Z2]. split; [exact Z1|]. apply (rep_eqm _ _ _ _ Z2). apply eqm_eq. cbn [Lsum]. ring. }
    set (z0 := tab be (fun _ => zeroQP pp L) : swk N).
    destruct (G l z0 z0 (fun _ _ => R0) H) as (x1 & x2 & X1 & X2 & X2' & X3).
    - apply tab_length.
    - apply tab_length.
    - intros k i K V. assert (E : fqp (pick z0 z0 k) i = R0).
      { assert (E : fqp (zeroQP pp L : polyQP N) i = R0) by (destruct i as [j|j]; cbn [vi] in V; cbn [fqp zeroQP qpQ qpP]; unfold row; rewrite nth_tab by lia; reflexivity).
        unfold pick, z0. destruct (Nat.ltb_spec k be); rewrite nth_tab by lia; exact E. }
      rewrite E. pose proof (okmod_md pp WF L i L_Qm V) as OK. split; [apply canon_inr; apply canon_zero; apply OK|apply rep_zero; assumption].
    - rewrite X1. cbn [rbind]. do 2 eexists. split; [reflexivity|]. split; [rewrite map_length; assumption|]. split; [rewrite map_length; assumption|]. intros k K i V.
      assert (E : pick (map (lvl1 pp L r_mform) x1) (map (lvl1 pp L r_mform) x2) k = lvl1 pp L r_mform (pick x1 x2 k)).
      { unfold pick. destruct (Nat.ltb_spec k be); apply nth_map'; lia. }
      rewrite E, fqp_lvl1 by assumption. pose proof (okmod_md pp WF L i L_Qm V) as OK. destruct (X3 k i K V) as [Y1 Y2].
      assert (Wd : wrd (fqp (pick x1 x2 k) i)) by (apply (inr_wrd (md pp i)); [apply OK|assumption]).
      split; [apply canon_inr; apply r_mform_ok; [apply OK|assumption]|]. apply rep_mform; trivial. apply (rep_eqm _ _ _ _ Y2). apply eqm_eq. ring.
  Qed.
End Dig.
