(** The Encryptor that keeps its pool (GenPool.EncryptSt) computes the rows of CtModel.Encrypt, whatever its pool and the ciphertext it writes held. *)
From Verif Require Import Base IdSetModel NumTheory Negacyclic Ntt Word BasisExt Rows RlweModel KeyGenModel CtModel CtSpec CtProofs EncDecProofs KeySwitchModel KsPool KsPoolProofs GenPool.
Open Scope Z_scope.

Section Enc.
  Context {N : nat} (pp : rparams) (om : nat -> list (R N)).
  Notation R := (R N).
  Notation ct := (ctT N).
  Variables (id : string) (lv n : nat) (f0 f1 : bool) (base : ct).
  Hypothesis (NE : id <> id0) (LN : (lv < n)%nat).

  Definition hold (c : ct) (x0 x1 : list R) : Prop :=
    exists p0 p1, mget seq_dec c id0 = Some p0 /\ mget seq_dec c id = Some p1 /\ firstn (S lv) (prows p0) = x0 /\ firstn (S lv) (prows p1) = x1 /\
      length (prows p0) = n /\ length (prows p1) = n /\ pntt p0 = f0 /\ pntt p1 = f1 /\ mwf c /\ forall x, x <> id0 -> x <> id -> mget seq_dec c x = mget seq_dec base x.

  Lemma row_firstn (a : list R) j : (j <= lv)%nat -> row (firstn (S lv) a) j = row a j.
  Proof. intros H. unfold row. rewrite <- (firstn_skipn (S lv) a) at 2. destruct (Nat.lt_ge_cases j (length (firstn (S lv) a))) as [K|K].
    - rewrite app_nth1 by exact K. reflexivity.
    - rewrite nth_overflow by exact K. rewrite app_nth2 by exact K. rewrite nth_overflow; [reflexivity|]. rewrite skipn_length. rewrite firstn_length in *. lia. Qed.
  Lemma firstn_wr lw (new old : list R) : (lv <= lw)%nat -> (lv < length old)%nat -> (lv < length new)%nat -> firstn (S lv) (wr lw new old) = firstn (S lv) new.
  Proof.
    intros A B C. apply (nth_ext _ _ R0 R0).
    - rewrite !firstn_length, wr_length. lia.
    - intros j Hj. rewrite firstn_length, wr_length in Hj. pose proof (row_firstn (wr lw new old) j ltac:(lia)) as E1. pose proof (row_firstn new j ltac:(lia)) as E2.
      unfold row in E1, E2. rewrite E1, E2. pose proof (wr_row lw new old j ltac:(lia)) as E3. unfold row in E3. rewrite E3. destruct (Nat.leb_spec j lw); [reflexivity|lia].
  Qed.
  (* an operation on the rows 0..lv *)
  Definition local (F : list R -> list R) : Prop := forall a, F a = F (firstn (S lv) a) /\ length (F a) = S lv.
  Lemma local1 f : local (lvlQ1 pp lv f).
  Proof. intros a. split; [apply tab_ext; intros j Hj; rewrite row_firstn by lia; reflexivity|apply tab_length]. Qed.
  Lemma local2 f b : local (fun a => lvlQ2 pp lv f a b).
  Proof. intros a. split; [apply tab_ext; intros j Hj; rewrite row_firstn by lia; reflexivity|apply tab_length]. Qed.
  Lemma local2' f b : local (fun a => lvlQ2 pp lv f b a).
  Proof. intros a. split; [apply tab_ext; intros j Hj; rewrite row_firstn by lia; reflexivity|apply tab_length]. Qed.
  Lemma local_wr F (new old : list R) : local F -> (lv < length old)%nat -> (lv < length new)%nat -> F (wr lv new old) = F new.
  Proof. intros L A B. rewrite (proj1 (L (wr lv new old))), firstn_wr by lia. symmetry. apply L. Qed.
  Lemma hold_set0 (c : ct) x0 x1 p : hold c x0 x1 -> length (prows p) = n -> pntt p = f0 -> hold (cset c id0 p) (firstn (S lv) (prows p)) x1.
  Proof.
    intros (p0 & p1 & A & B & C & D & E & F & G & H & W & O) LP FP. exists p, p1. unfold cset. rewrite mget_mset_eq, mget_mset_neq by congruence.
    repeat (split; [assumption || reflexivity|]). split; [apply mwf_mset; exact W|]. intros x X0 X1. rewrite mget_mset_neq by exact X0. apply O; assumption.
  Qed.
  Lemma hold_set1 (c : ct) x0 x1 p : hold c x0 x1 -> length (prows p) = n -> pntt p = f1 -> hold (cset c id p) x0 (firstn (S lv) (prows p)).
  Proof.
    intros (p0 & p1 & A & B & C & D & E & F & G & H & W & O) LP FP. exists p0, p. unfold cset. rewrite mget_mset_eq, mget_mset_neq by congruence.
    repeat (split; [assumption || reflexivity|]). split; [apply mwf_mset; exact W|]. intros x X0 X1. rewrite mget_mset_neq by exact X1. apply O; assumption.
  Qed.
  Lemma firstn_len (l : list R) : length l = S lv -> firstn (S lv) l = l.
  Proof. intros E. apply firstn_all2. lia. Qed.

  Lemma cgetL_hold0 (c : ct) x0 x1 lw : hold c x0 x1 -> (lw < n)%nat -> exists p, cgetL c id0 lw = Ok p /\ firstn (S lv) (prows p) = x0 /\ length (prows p) = n /\ pntt p = f0.
  Proof. intros (p0 & p1 & A & B & C & D & E & F & G & H & W & O) L. exists p0. unfold cgetL, cget. rewrite A. cbn [rbind]. rewrite (proj2 (Nat.leb_gt _ _)) by lia. auto. Qed.
  Lemma cgetL_hold1 (c : ct) x0 x1 lw : hold c x0 x1 -> (lw < n)%nat -> exists p, cgetL c id lw = Ok p /\ firstn (S lv) (prows p) = x1 /\ length (prows p) = n /\ pntt p = f1.
  Proof. intros (p0 & p1 & A & B & C & D & E & F & G & H & W & O) L. exists p1. unfold cgetL, cget. rewrite B. cbn [rbind]. rewrite (proj2 (Nat.leb_gt _ _)) by lia. auto. Qed.
  Lemma wrC_hold0 (c : ct) x0 x1 lw new : hold c x0 x1 -> (lv <= lw)%nat -> (lw < n)%nat -> (lv < length new)%nat ->
    exists c', wrC lw c id0 new = Ok c' /\ hold c' (firstn (S lv) new) x1.
  Proof.
    intros H A B C. destruct (cgetL_hold0 c x0 x1 lw H B) as (p & E & X & L & FL). unfold wrC. rewrite E. cbn [rbind]. eexists. split; [reflexivity|].
    rewrite <- (firstn_wr lw new (prows p)) by lia. apply (hold_set0 c x0 x1 (Pol (wr lw new (prows p)) (pntt p)) H); cbn [prows pntt]; [rewrite wr_length; exact L|exact FL].
  Qed.
  Lemma wrC_hold1 (c : ct) x0 x1 lw new : hold c x0 x1 -> (lv <= lw)%nat -> (lw < n)%nat -> (lv < length new)%nat ->
    exists c', wrC lw c id new = Ok c' /\ hold c' x0 (firstn (S lv) new).
  Proof.
    intros H A B C. destruct (cgetL_hold1 c x0 x1 lw H B) as (p & E & X & L & FL). unfold wrC. rewrite E. cbn [rbind]. eexists. split; [reflexivity|].
    rewrite <- (firstn_wr lw new (prows p)) by lia. apply (hold_set1 c x0 x1 (Pol (wr lw new (prows p)) (pntt p)) H); cbn [prows pntt]; [rewrite wr_length; exact L|exact FL].
  Qed.
  Lemma step0 {B} (c : ct) x0 x1 F : hold c x0 x1 -> local F ->
    exists c', hold c' (F x0) x1 /\ forall K : ct -> res B, (p <- cgetL c id0 lv ;; d <- wrC lv c id0 (F (prows p)) ;; K d) = K c'.
  Proof.
    intros H L. destruct (cgetL_hold0 c x0 x1 lv H LN) as (p & E & X & LP & FL). destruct (wrC_hold0 c x0 x1 lv (F (prows p)) H (le_n _) LN) as (c' & E' & H'); [rewrite (proj2 (L _)); lia|].
    exists c'. split; [|intros K; rewrite E; cbn [rbind]; rewrite E'; reflexivity]. rewrite firstn_len in H' by apply L. rewrite (proj1 (L (prows p))), X in H'. exact H'.
  Qed.
  Lemma step1 {B} (c : ct) x0 x1 F : hold c x0 x1 -> local F ->
    exists c', hold c' x0 (F x1) /\ forall K : ct -> res B, (p <- cgetL c id lv ;; d <- wrC lv c id (F (prows p)) ;; K d) = K c'.
  Proof.
    intros H L. destruct (cgetL_hold1 c x0 x1 lv H LN) as (p & E & X & LP & FL). destruct (wrC_hold1 c x0 x1 lv (F (prows p)) H (le_n _) LN) as (c' & E' & H'); [rewrite (proj2 (L _)); lia|].
    exists c'. split; [|intros K; rewrite E; cbn [rbind]; rewrite E'; reflexivity]. rewrite firstn_len in H' by apply L. rewrite (proj1 (L (prows p))), X in H'. exact H'.
  Qed.
  Lemma level_hold (c : ct) x0 x1 : hold c x0 x1 -> ctLevel c = Ok (n - 1)%nat.
  Proof. intros (p0 & p1 & A & B & C & D & E & F & G & H & W & O). unfold ctLevel, cget. rewrite A. cbn [rbind]. unfold plevel. rewrite E. reflexivity. Qed.
  Lemma firstn_lvl2 lw f (a b : list R) : (lv <= lw)%nat -> firstn (S lv) (lvlQ2 pp lw f a b) = lvlQ2 pp lv f a b.
  Proof.
    intros H. unfold lvlQ2. apply (nth_ext _ _ R0 R0); [rewrite firstn_length, !tab_length; lia|]. intros j Hj. rewrite firstn_length, tab_length in Hj.
    pose proof (row_firstn (tab (S lw) (fun j => f (Qi pp j) (row a j) (row b j))) j ltac:(lia)) as E. etransitivity; [exact E|]. unfold row at 1. rewrite !nth_tab by lia. reflexivity.
  Qed.
  Lemma rdAdd_hold0 st (c : ct) x0 x1 : hold c x0 x1 -> exists c', rdAdd om pp st c id0 = Ok (ES (S (en st)) (eQ st), c') /\ hold c' (lvlQ2 pp lv r_add x0 (om (en st))) x1.
  Proof.
    intros H. unfold rdAdd. rewrite (level_hold c x0 x1 H). cbn [rbind]. destruct (cgetL_hold0 c x0 x1 (n - 1) H ltac:(lia)) as (p & E & X & LP & FL). rewrite E. cbn [rbind].
    destruct (wrC_hold0 c x0 x1 (n - 1) (lvlQ2 pp (n - 1) r_add (prows p) (om (en st))) H) as (c' & E' & H'); [lia|lia|unfold lvlQ2; rewrite tab_length; lia|].
    rewrite E'. cbn [rbind]. exists c'. split; [reflexivity|]. rewrite firstn_lvl2 in H' by lia. rewrite (proj1 (local2 r_add (om (en st)) (prows p))), X in H'. exact H'.
  Qed.
  Lemma rdAdd_hold1 st (c : ct) x0 x1 : hold c x0 x1 -> exists c', rdAdd om pp st c id = Ok (ES (S (en st)) (eQ st), c') /\ hold c' x0 (lvlQ2 pp lv r_add x1 (om (en st))).
  Proof.
    intros H. unfold rdAdd. rewrite (level_hold c x0 x1 H). cbn [rbind]. destruct (cgetL_hold1 c x0 x1 (n - 1) H ltac:(lia)) as (p & E & X & LP & FL). rewrite E. cbn [rbind].
    destruct (wrC_hold1 c x0 x1 (n - 1) (lvlQ2 pp (n - 1) r_add (prows p) (om (en st))) H) as (c' & E' & H'); [lia|lia|unfold lvlQ2; rewrite tab_length; lia|].
    rewrite E'. cbn [rbind]. exists c'. split; [reflexivity|]. rewrite firstn_lvl2 in H' by lia. rewrite (proj1 (local2 r_add (om (en st)) (prows p))), X in H'. exact H'.
  Qed.
End Enc.

Lemma firstn_full {N} lv (l : list (R N)) : length l = S lv -> firstn (S lv) l = l.
Proof. intros E. apply firstn_all2. lia. Qed.
Section Main.
  Context {N : nat} (pp : rparams) (om : nat -> list (R N)).
  Notation R := (R N).
  Notation ct := (ctT N).
  (* reading a pool that was just written *)
  Lemma wr1 lv f (x old : list R) : (lv < length old)%nat -> lvlQ1 pp lv f (wr lv x old) = lvlQ1 pp lv f x.
  Proof. intros H. apply tab_ext. intros j Hj. rewrite wr_row by lia. rewrite (proj2 (Nat.leb_le _ _)) by lia. reflexivity. Qed.
  Lemma wr2l lv f (x old b : list R) : (lv < length old)%nat -> lvlQ2 pp lv f (wr lv x old) b = lvlQ2 pp lv f x b.
  Proof. intros H. apply tab_ext. intros j Hj. rewrite wr_row by lia. rewrite (proj2 (Nat.leb_le _ _)) by lia. reflexivity. Qed.
  Lemma wr2r lv f (x old b : list R) : (lv < length old)%nat -> lvlQ2 pp lv f b (wr lv x old) = lvlQ2 pp lv f b x.
  Proof. intros H. apply tab_ext. intros j Hj. rewrite wr_row by lia. rewrite (proj2 (Nat.leb_le _ _)) by lia. reflexivity. Qed.

  (** which of the three samples is which error: with an NTT-form ciphertext the party's component is drawn first *)
  Theorem EncryptSt_ok st (pt : poly N) pk (c : ct) n :
    let id := pk_id pk in let lv := Nat.min (plevel pt) (plevel (comp c id0)) in let fl := pntt (comp c id0) in
    let uM := lvlQ1 pp lv r_mform (lvlQ1 pp lv ntt (om (en st))) in
    let e0 := if fl then om (S (S (en st))) else om (S (en st)) in
    let e1 := if fl then om (S (en st)) else om (S (S (en st))) in
    id <> id0 -> mwf c -> In id0 (keys c) -> In id (keys c) -> length (prows (comp c id0)) = n -> length (prows (comp c id)) = n -> (0 < n)%nat -> (n <= length (eQ st))%nat ->
    exists st' c', EncryptSt om pp st pt pk c = Ok (st', c') /\ en st' = (en st + 3)%nat /\ length (eQ st') = length (eQ st) /\ mwf c' /\
      forall x, mget seq_dec c' x = if string_dec x id0 then Some (Pol (enc0 pp lv uM (qpQ (pk0 pk)) e0 fl (pntt pt) (prows pt)) fl) else
        if string_dec x id then Some (Pol (enc1 pp lv uM (qpQ (pk1 pk)) e1 fl) fl) else mget seq_dec c x.
  Proof.
    intros id lv fl uM e0 e1 NE W I0 I1 L0 L1 NP LP. set (f1 := pntt (comp c id)).
    assert (LN : (lv < n)%nat) by (unfold lv, plevel; lia). assert (PL : (lv < length (eQ st))%nat) by lia.
    assert (H0 : hold id lv n fl f1 c c (firstn (S lv) (prows (comp c id0))) (firstn (S lv) (prows (comp c id)))).
    { exists (comp c id0), (comp c id). rewrite (mget_comp c id0 I0), (mget_comp c id I1). repeat (split; [reflexivity || assumption|]). intros; reflexivity. }
    unfold EncryptSt. fold id. unfold ctLevel. rewrite (cget_comp c id0 I0). cbn [rbind]. fold lv. fold fl.
    set (s1 := eset lv (eset lv (erd om lv st) (lvlQ1 pp lv ntt (eQ (erd om lv st)))) (lvlQ1 pp lv r_mform (eQ (eset lv (erd om lv st) (lvlQ1 pp lv ntt (eQ (erd om lv st))))))).
    assert (S1n : en s1 = S (en st)) by reflexivity. assert (S1l : length (eQ s1) = length (eQ st)) by (unfold s1, eset, erd; cbn [eQ]; rewrite !wr_length; reflexivity).
    assert (U2 : forall f b, lvlQ2 pp lv f (eQ s1) b = lvlQ2 pp lv f uM b).
    { intros f b. unfold s1, eset, erd. cbn [eQ]. rewrite wr2l by (rewrite !wr_length; lia). unfold uM. rewrite wr1 by (rewrite wr_length; lia). rewrite (wr1 lv ntt) by lia. reflexivity. }
    rewrite !U2. clearbody s1.
    destruct (wrC_hold0 id lv n fl f1 c NE LN c _ _ lv (lvlQ2 pp lv r_mont uM (qpQ (pk0 pk))) H0 (le_n _) LN) as (c1 & E1 & H1); [unfold lvlQ2; rewrite tab_length; lia|].
    rewrite E1. cbn [rbind]. rewrite firstn_full in H1 by apply tab_length.
    destruct (wrC_hold1 id lv n fl f1 c NE LN c1 _ _ lv (lvlQ2 pp lv r_mont uM (qpQ (pk1 pk))) H1 (le_n _) LN) as (c2 & E2 & H2); [unfold lvlQ2; rewrite tab_length; lia|].
    rewrite E2. cbn [rbind]. rewrite firstn_full in H2 by apply tab_length.
    match goal with |- context [rbind ?m ?k] => set (M := m); set (KK := k) end.
    assert (GM : exists s' c', M = Ok (s', c') /\ en s' = (en st + 3)%nat /\ length (eQ s') = length (eQ st) /\
      hold id lv n fl f1 c c' (enc0 pp lv uM (qpQ (pk0 pk)) e0 fl (pntt pt) (prows pt)) (enc1 pp lv uM (qpQ (pk1 pk)) e1 fl)).
    { unfold M, enc0, enc1, e0, e1. clear M KK. destruct fl.
      - set (s2 := erd om lv s1). set (s3 := eset lv s2 (lvlQ1 pp lv ntt (eQ s2))).
        assert (S3l : length (eQ s3) = length (eQ st)) by (unfold s3, s2, eset, erd; cbn [eQ]; rewrite !wr_length; exact S1l).
        assert (U3 : forall f b, lvlQ2 pp lv f b (eQ s3) = lvlQ2 pp lv f b (lvlQ1 pp lv ntt (om (S (en st))))).
        { intros f b. unfold s3, s2, eset, erd. cbn [eQ]. rewrite wr2r by (rewrite wr_length; lia). rewrite wr1 by lia. rewrite S1n. reflexivity. }
        destruct (step1 (B := est N * ct) id lv n true f1 c NE LN c2 _ _ (fun a => lvlQ2 pp lv r_add a (eQ s3)) H2 (local2 pp lv n LN _ _)) as (c3 & H3 & K3).
        cbv zeta. rewrite (K3 _). rewrite U3 in H3. clear K3.
        set (s4 := erd om lv s3). assert (S4l : length (eQ s4) = length (eQ st)) by (unfold s4, erd; cbn [eQ]; rewrite wr_length; exact S3l).
        assert (S4n : en s4 = (en st + 3)%nat) by (unfold s4, s3, s2; cbn; rewrite S1n; lia).
        assert (N3 : en s3 = S (S (en st))) by (unfold s3, s2; cbn; rewrite S1n; reflexivity).
        destruct (negb (pntt pt)).
        + set (s5 := eset lv s4 (lvlQ2 pp lv r_add (eQ s4) (prows pt))). set (s6 := eset lv s5 (lvlQ1 pp lv ntt (eQ s5))).
          assert (U6 : forall f b, lvlQ2 pp lv f b (eQ s6) = lvlQ2 pp lv f b (lvlQ1 pp lv ntt (lvlQ2 pp lv r_add (om (S (S (en st)))) (prows pt)))).
          { intros f b. unfold s6, s5, eset. cbn [eQ]. rewrite wr2r by (rewrite wr_length; lia). rewrite wr1 by lia. unfold s4, erd. cbn [eQ]. rewrite wr2l by lia. rewrite N3. reflexivity. }
          destruct (step0 (B := est N * ct) id lv n true f1 c NE LN c3 _ _ (fun a => lvlQ2 pp lv r_add a (eQ s6)) H3 (local2 pp lv n LN _ _)) as (c4 & H4 & K4).
          rewrite (K4 _). rewrite U6 in H4. exists s6, c4. split; [reflexivity|]. split; [exact S4n|]. split; [unfold s6, s5, eset; cbn [eQ]; rewrite !wr_length; exact S4l|exact H4].
        + set (s5 := eset lv s4 (lvlQ1 pp lv ntt (eQ s4))).
          assert (U5 : forall f b, lvlQ2 pp lv f b (eQ s5) = lvlQ2 pp lv f b (lvlQ1 pp lv ntt (om (S (S (en st)))))).
          { intros f b. unfold s5, eset. cbn [eQ]. rewrite wr2r by lia. unfold s4, erd. cbn [eQ]. rewrite wr1 by lia. rewrite N3. reflexivity. }
          destruct (step0 (B := est N * ct) id lv n true f1 c NE LN c3 _ _ (fun a => lvlQ2 pp lv r_add a (eQ s5)) H3 (local2 pp lv n LN _ _)) as (c4 & H4 & K4).
          rewrite (K4 _). rewrite U5 in H4. clear K4.
          destruct (step0 (B := est N * ct) id lv n true f1 c NE LN c4 _ _ (fun a => lvlQ2 pp lv r_add a (prows pt)) H4 (local2 pp lv n LN _ _)) as (c5 & H5 & K5).
          rewrite (K5 _). exists s5, c5. split; [reflexivity|]. split; [exact S4n|]. split; [unfold s5, eset; cbn [eQ]; rewrite wr_length; exact S4l|exact H5].
      - destruct (step0 (B := est N * ct) id lv n false f1 c NE LN c2 _ _ (lvlQ1 pp lv intt) H2 (local1 pp lv n LN _)) as (c3 & H3 & K3). rewrite (K3 _). clear K3.
        destruct (step1 (B := est N * ct) id lv n false f1 c NE LN c3 _ _ (lvlQ1 pp lv intt) H3 (local1 pp lv n LN _)) as (c4 & H4 & K4). rewrite (K4 _). clear K4.
        destruct (rdAdd_hold0 pp om id lv n false f1 c NE LN s1 c4 _ _ H4) as (c5 & E5 & H5). rewrite E5. cbn [rbind].
        destruct (rdAdd_hold1 pp om id lv n false f1 c NE LN (ES (S (en s1)) (eQ s1)) c5 _ _ H5) as (c6 & E6 & H6). rewrite E6. cbn [rbind en eQ].
        cbn [en] in H6. rewrite S1n in H6. rewrite S1n.
        destruct (negb (pntt pt)).
        + destruct (step0 (B := est N * ct) id lv n false f1 c NE LN c6 _ _ (fun a => lvlQ2 pp lv r_add a (prows pt)) H6 (local2 pp lv n LN _ _)) as (c7 & H7 & K7). rewrite (K7 _).
          eexists _, c7. split; [reflexivity|]. cbn [en eQ]. split; [lia|]. split; [exact S1l|exact H7].
        + set (s7 := eset lv (ES (S (S (S (en st)))) (eQ s1)) (lvlQ1 pp lv intt (prows pt))).
          assert (U7 : forall f b, lvlQ2 pp lv f b (eQ s7) = lvlQ2 pp lv f b (lvlQ1 pp lv intt (prows pt))).
          { intros f b. unfold s7, eset. cbn [eQ]. rewrite wr2r by lia. reflexivity. }
          destruct (step0 (B := est N * ct) id lv n false f1 c NE LN c6 _ _ (fun a => lvlQ2 pp lv r_add a (eQ s7)) H6 (local2 pp lv n LN _ _)) as (c7 & H7 & K7).
          cbv zeta. rewrite (K7 _). rewrite U7 in H7. exists s7, c7. split; [reflexivity|]. split; [unfold s7, eset; cbn [en]; lia|]. split; [unfold s7, eset; cbn [eQ]; rewrite wr_length; exact S1l|exact H7]. }
    destruct GM as (s' & c' & EM & N' & L' & (p0 & p1 & A & B & C & D & E & F & G & H & Wc & O)). rewrite EM. clear EM M. unfold KK. cbn [rbind].
    assert (NE' : id0 <> id) by congruence.
    assert (CA : cget c' id0 = Ok p0) by (unfold cget; rewrite A; reflexivity). assert (CB : cget c' id = Ok p1) by (unfold cget; rewrite B; reflexivity).
    rewrite CA, CB. cbn [rbind]. rewrite cget_neq, CA by exact NE'. cbn [rbind]. rewrite cget_neq, cget_eq by exact NE. cbn [rbind prows pntt].
    eexists s', _. split; [reflexivity|]. split; [exact N'|]. split; [exact L'|]. split; [repeat apply mwf_mset; exact Wc|].
    intros x. unfold cset. rewrite !mget_mset. rewrite C, D, G. destruct (seq_dec x id), (seq_dec x id0), (string_dec x id0), (string_dec x id); try congruence. apply O; assumption.
  Qed.
End Main.
