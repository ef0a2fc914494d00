(** C74: multiplication with relinearisation gives the same ciphertext in any iteration order. *)
From Coq Require Import Znumtheory Setoid Morphisms Permutation.
From Verif Require Import Base IdSetModel KeySetModel NumTheory Negacyclic Ntt Word BasisExt BasisExtProofs Rows RlweModel KeyGenModel SchemeSpec ExtProd ExtProps Galois KeyGenProofs CtModel CtSpec CtProofs EncDecProofs KeySwitchModel Digits KsLoops RotProofs ConjProofs MulProofs CkksModel BfvModel PropsEnc Determ DetermOps.
Open Scope Z_scope.

Section Mul.
  Context {N : nat} (pp : rparams) (WF : wfp N pp).
  Notation R := (R N). Notation ct := (ctT N). Notation L := (maxLevel pp).
  Notation order := IdSetModel.order. Notation eqc := (@eqc N). Notation zok := (@zok N pp). Notation rowsok := (@rowsok N pp). Notation wfct := (@wfct N pp).

  (** the two forms of an operand yield the same digits and the same external products *)
  Definition agree level h h' (op op' : ct) : Prop := forall id, In id (parties op) -> hdig pp level h op id = hdig pp level h' op' id /\ forall key, ExtOp pp level h op id key = ExtOp pp level h' op' id key.
  (** usable digits and keys *)
  Definition gvok level (sel : relinKey N -> swk N) h (op : ct) rs (l : list string) : Prop := forall id, In id l -> exists ds k, hdig pp level h op id = Ok ds /\ rlk_get rs id = Ok k /\ (beta pp level <= length ds)%nat /\ (beta pp level <= length (sel k))%nat /\
    forall i m, (i < beta pp level)%nat -> vi pp level m -> canon (md pp m) (fqp (nth i ds dQP) m) /\ inr (md pp m) (fqp (nth i (sel k) dQP) m).

  Lemma macAdd_map level (key ds acc : swk N) : (beta pp level <= length key)%nat -> (beta pp level <= length ds)%nat -> (beta pp level <= length acc)%nat ->
    macAdd pp level key ds acc = Ok (map (fun i => lvl3 pp level r_mont_add (nth i key dQP) (nth i ds dQP) (nth i acc dQP)) (seq 0 (beta pp level))).
  Proof. intros A B C. unfold macAdd. apply rmapM_map. intros i Hi. apply in_seq in Hi. rewrite !(idx_nth _ _ dQP) by lia. reflexivity. Qed.
  Definition accok level (x : swk N) : Prop := length x = beta pp level /\ forall i m, (i < beta pp level)%nat -> vi pp level m -> inr (md pp m) (fqp (nth i x dQP) m).
  Lemma macAdd_accok level key ds acc : (level < length (Qm pp))%nat -> accok level acc -> (forall i m, (i < beta pp level)%nat -> vi pp level m -> canon (md pp m) (fqp (nth i ds dQP) m) /\ inr (md pp m) (fqp (nth i key dQP) m)) ->
    accok level (map (fun i => lvl3 pp level r_mont_add (nth i key dQP) (nth i ds dQP) (nth i acc dQP)) (seq 0 (beta pp level))).
  Proof.
    intros HL [A1 A2] H. split; [rewrite map_length, seq_length; reflexivity|]. intros i m Hi V. rewrite (nth_map' _ _ _ 0%nat) by (rewrite seq_length; exact Hi). rewrite seq_nth by exact Hi. cbn [plus]. rewrite fqp_lvl3 by exact V.
    destruct (H i m Hi V) as [C K]. pose proof (okmod_md pp WF level m HL V) as OK. unfold r_mont_add. apply canon_inr. apply r_add_canon; [apply OK|apply A2; assumption|]. apply (r_mont_ok _ _ _ (proj2 OK) K (canon_wrd _ _ (proj2 OK) C)).
  Qed.
  Lemma lvl3_comm level k1 d1 k2 d2 (x : polyQP N) : (level < length (Qm pp))%nat ->
    (forall m, vi pp level m -> inr (md pp m) (fqp x m) /\ canon (md pp m) (fqp d1 m) /\ inr (md pp m) (fqp k1 m) /\ canon (md pp m) (fqp d2 m) /\ inr (md pp m) (fqp k2 m)) ->
    lvl3 pp level r_mont_add k2 d2 (lvl3 pp level r_mont_add k1 d1 x) = lvl3 pp level r_mont_add k1 d1 (lvl3 pp level r_mont_add k2 d2 x).
  Proof.
    intros HL H.
    assert (C : forall m, vi pp level m -> r_mont_add (md pp m) (fqp k2 m) (fqp d2 m) (r_mont_add (md pp m) (fqp k1 m) (fqp d1 m) (fqp x m)) = r_mont_add (md pp m) (fqp k1 m) (fqp d1 m) (r_mont_add (md pp m) (fqp k2 m) (fqp d2 m) (fqp x m))).
    { intros m V. pose proof (okmod_md pp WF level m HL V) as OK. destruct (H m V) as (X & D1 & K1 & D2 & K2). unfold r_mont_add. apply radd_comm; [apply OK|exact X| |].
      - apply (r_mont_ok _ _ _ (proj2 OK) K1 (canon_wrd _ _ (proj2 OK) D1)).
      - apply (r_mont_ok _ _ _ (proj2 OK) K2 (canon_wrd _ _ (proj2 OK) D2)). }
    unfold lvl3 at 1 3. f_equal; [unfold lvlQ3|]; apply tab_ext; intros j Hj.
    - pose proof (C (MQ j) ltac:(cbn; lia)) as Y. cbn [md fqp] in Y. unfold lvl3. cbn [qpQ]. unfold lvlQ3. rewrite !row_tab by lia. exact Y.
    - pose proof (C (MP j) ltac:(cbn; lia)) as Y. cbn [md fqp] in Y. unfold lvl3. cbn [qpP]. rewrite !row_tab by lia. exact Y.
  Qed.
  Lemma genVec_perm level sel h h' (op op' : ct) rs l l' : (level < length (Qm pp))%nat -> Permutation l l' -> NoDup l -> (forall x, In x l -> In x (parties op)) -> agree level h h' op op' -> gvok level sel h op rs l ->
    dir eq (genVec pp level sel h op rs l) (genVec pp level sel h' op' rs l').
  Proof.
    intros HL P ND SP AG GV. unfold genVec.
    set (f := fun acc id => ds <- hdig pp level h op id ;; k <- rlk_get rs id ;; macAdd pp level (sel k) ds acc).
    rewrite (rfold_extI (fun acc id => ds <- hdig pp level h' op' id ;; k <- rlk_get rs id ;; macAdd pp level (sel k) ds acc) f).
    2:{ intros acc id I. unfold f. apply (Permutation_in _ (Permutation_sym P)) in I. rewrite <- (proj1 (AG id (SP id I))). reflexivity. }
    assert (F : forall x acc, In x l -> accok level acc -> exists ds k, f acc x = Ok (map (fun i => lvl3 pp level r_mont_add (nth i (sel k) dQP) (nth i ds dQP) (nth i acc dQP)) (seq 0 (beta pp level))) /\
       hdig pp level h op x = Ok ds /\ rlk_get rs x = Ok k /\ forall i m, (i < beta pp level)%nat -> vi pp level m -> canon (md pp m) (fqp (nth i ds dQP) m) /\ inr (md pp m) (fqp (nth i (sel k) dQP) m)).
    { intros x acc I [A1 A2]. destruct (GV x I) as (ds & k & H1 & H2 & H3 & H4 & H5). exists ds, k. unfold f. rewrite H1. cbn [rbind]. rewrite H2. cbn [rbind]. split; [apply macAdd_map; [exact H4|exact H3|lia]|]. split; [reflexivity|]. split; [reflexivity|exact H5]. }
    set (b0 := tab (beta pp level) (fun _ => zeroQP pp level)).
    assert (A0 : accok level b0).
    { split; [apply tab_length|]. intros i m Hi V. unfold b0. rewrite nth_tab by exact Hi. assert (E : fqp (zeroQP pp level : polyQP N) m = R0) by (destruct m as [j|j]; cbn in V; cbn [fqp zeroQP qpQ qpP]; unfold row; rewrite nth_tab by lia; reflexivity).
      rewrite E. apply canon_inr, canon_zero. apply (okmod_md pp WF level m HL V). }
    assert (D : dir eq (rfold f l b0) (rfold f l' b0)).
    { apply (rfold_perm eq (@eq_refl _) (@eq_trans _) (accok level)); trivial.
      - intros x b c b' _ <- H. exists b'. split; [exact H|reflexivity].
      - intros x b b' I A H. destruct (F x b I A) as (ds & k & H1 & _ & _ & H5). rewrite H1 in H. injection H as <-. apply macAdd_accok; assumption.
      - intros x y b b1 b2 Ix Iy _ A H1 H2.
        destruct (F x b Ix A) as (ds & k & G1 & X1 & X2 & G5). rewrite G1 in H1. injection H1 as <-.
        pose proof (macAdd_accok level (sel k) ds b HL A G5) as AX.
        destruct (F y _ Iy AX) as (ds2 & k2 & G2 & Y1 & Y2 & G6). rewrite G2 in H2. injection H2 as <-.
        destruct (F y b Iy A) as (ds2' & k2' & G3 & Y1' & Y2' & G7). assert (ds2' = ds2) by congruence. assert (k2' = k2) by congruence. subst ds2' k2'.
        pose proof (macAdd_accok level (sel k2) ds2 b HL A G7) as AY.
        destruct (F x _ Ix AY) as (ds' & k' & G4 & X1' & X2' & G8). assert (ds' = ds) by congruence. assert (k' = k) by congruence. subst ds' k'.
        eexists _, _. split; [exact G3|]. split; [exact G4|]. apply map_ext_in. intros i Hi. apply in_seq in Hi.
        rewrite !(nth_map' _ _ _ 0%nat) by (rewrite seq_length; lia). rewrite !seq_nth by lia. cbn [plus]. apply lvl3_comm; [exact HL|]. intros m V. split; [apply A; [lia|exact V]|]. destruct (G5 i m ltac:(lia) V) as [Z1 Z2]. destruct (G7 i m ltac:(lia) V) as [Z3 Z4]. repeat (split; [assumption|]). assumption. }
    intros a H. apply rbind_ok in H as (x & HX & H). destruct (D x HX) as (x' & HX' & <-). rewrite HX'. cbn [rbind]. exists a. split; [exact H|reflexivity].
  Qed.

  Lemma own_est G l (P : poly N -> Prop) z : (forall q p, G z q = Ok p -> P p) -> In z l -> forall (b b' : ct), rfold (own G) l b = Ok b' -> forall q, mget seq_dec b' z = Some q -> P q.
  Proof.
    intros K. induction l as [|x l IH]; intros I b b' H; [destruct I|]. cbn [rfold] in H. destruct (own G b x) as [b1|] eqn:F; [|discriminate]. cbn [rbind] in H.
    destruct (in_dec seq_dec z l) as [J|J]; [apply (IH J b1 b' H)|]. assert (x = z) by (destruct I; [assumption|contradiction]). subst x.
    apply (own_keep G l P z ltac:(intros q p J'; contradiction) b1 b' H). apply own_inv in F as (q & p & A & B & ->). intros r. unfold cset. rewrite mget_mset_eq. intros Y. assert (p = r) by congruence. subst r. apply (K q p B).
  Qed.

  (** the loops of the product *)
  Definition pG4 level (op0 : ct) bM (id : string) (q : poly N) : res (poly N) := p <- cgetL op0 id level ;; Ok (Pol (lvlQ2 pp level r_mont bM (lvlQ1 pp level ntt (prows p))) (pntt q)).
  Definition pG5 level (op1 : ct) (ids0 : idset) aN (id : string) (q : poly N) : res (poly N) :=
    p <- cgetL op1 id level ;; Ok (Pol (if is_has ids0 id then lvlQ3 pp level r_mont_add aN (lvlQ1 pp level ntt (prows p)) (prows q) else lvlQ2 pp level r_mont aN (lvlQ1 pp level ntt (prows p))) (pntt q)).
  Definition pG6 level (id : string) (q : poly N) : res (poly N) := Ok (Pol (lvlQ1 pp level intt (prows q)) (pntt q)).
  Definition pG7 level h1 (op1 : ct) x (id : string) (q : poly N) : res (poly N) := e <- ExtOp pp level h1 op1 id x ;; Ok (Pol (lvlQ2 pp level r_add (prows q) e) (pntt q)).
  Definition vG level (crs : crsT N) rs h0 (op0 : ct) y (id : string) (q : poly N) : res (list R * poly N) :=
    k <- rlk_get rs id ;; w <- ExtOp pp level h0 op0 id y ;; dw <- Decompose pp level (Pol w false) ;; ev <- ExternalProductHoisted pp level dw (rlk_v k) ;;
    u <- crs_get crs (-1) ;; eu <- ExternalProductHoisted pp level dw u ;; Ok (ev, Pol (lvlQ2 pp level r_add (prows q) eu) (pntt q)).
  Lemma prod_own level o (op0 op1 : ct) ids0 ids1 out : prodStage pp level o op0 op1 ids0 ids1 out =
    a0 <- cgetL op0 id0 level ;; b0 <- cgetL op1 id0 level ;;
    let aN := lvlQ1 pp level r_mform (lvlQ1 pp level ntt (prows a0)) in let bN := lvlQ1 pp level ntt (prows b0) in
    out <- cwr out id0 (lvlQ2 pp level r_mont aN bN) ;;
    out <- rfold (own (pG4 level op0 (lvlQ1 pp level r_mform bN))) (o 4%nat (keys ids0)) out ;;
    out <- rfold (own (pG5 level op1 ids0 aN)) (o 5%nat (keys ids1)) out ;;
    rfold (own (pG6 level)) (o 6%nat (keys out)) out.
  Proof.
    unfold prodStage. destruct (cgetL op0 id0 level) as [a0|]; cbn [rbind]; [|reflexivity]. destruct (cgetL op1 id0 level) as [b0|]; cbn [rbind]; [|reflexivity]. cbv zeta.
    destruct (cwr out id0 _) as [c|]; cbn [rbind]; [|reflexivity].
    rewrite (rfold_extI _ (own (pG4 level op0 (lvlQ1 pp level r_mform (lvlQ1 pp level ntt (prows b0)))))).
    2:{ intros b id _. unfold own, pG4, cwr. destruct (cgetL op0 id level); cbn [rbind]; destruct (cget b id); reflexivity. }
    destruct (rfold _ _ c) as [c1|]; cbn [rbind]; [|reflexivity].
    rewrite (rfold_extI _ (own (pG5 level op1 ids0 (lvlQ1 pp level r_mform (lvlQ1 pp level ntt (prows a0)))))).
    2:{ intros b id _. unfold own, pG5, cwr. destruct (cgetL op1 id level); cbn [rbind]; destruct (cget b id); cbn [rbind]; destruct (is_has ids0 id); reflexivity. }
    destruct (rfold _ _ c1) as [c2|]; cbn [rbind]; [|reflexivity].
    apply rfold_extI. intros b id _. unfold own, pG6, cwr. destruct (cget b id); reflexivity.
  Qed.
  Lemma x_own level o h1 (op1 : ct) ids1 x out : xStage pp level o h1 op1 ids1 x out = rfold (own (pG7 level h1 op1 x)) (o 7%nat (keys ids1)) out.
  Proof. apply rfold_extI. intros b id _. unfold own, pG7, cwr. destruct (ExtOp _ _ _ _ _ _); cbn [rbind]; destruct (cget b id); reflexivity. Qed.
  Lemma v_acc level o crs rs h0 (op0 : ct) ids0 y out : ~ In id0 (o 8%nat (keys ids0)) -> vStageH pp level o crs rs h0 op0 ids0 y out = rfold (acc pp level (vG level crs rs h0 op0 y)) (o 8%nat (keys ids0)) out.
  Proof.
    intros N0. apply rfold_extI. intros b id I. assert (NE : id <> id0) by (intros EE; subst; contradiction). unfold acc, vG, cwr.
    destruct (rlk_get rs id) as [k|]; cbn [rbind]; [|destruct (cget b id); reflexivity].
    destruct (ExtOp _ _ _ _ _ _) as [w|]; cbn [rbind]; [|destruct (cget b id); reflexivity].
    destruct (Decompose _ _ _) as [dw|]; cbn [rbind]; [|destruct (cget b id); reflexivity].
    destruct (ExternalProductHoisted _ _ _ (rlk_v k)) as [ev|]; cbn [rbind]; [|destruct (cget b id); reflexivity].
    destruct (cget b id0) as [q0|]; cbn [rbind].
    2:{ destruct (cget b id); cbn [rbind]; [|reflexivity]. destruct (crs_get crs (-1)) as [u|]; cbn [rbind]; [|reflexivity]. destruct (ExternalProductHoisted _ _ _ _); reflexivity. }
    destruct (crs_get crs (-1)) as [u|]; cbn [rbind]; [|destruct (cget b id); reflexivity].
    destruct (ExternalProductHoisted _ _ _ _) as [eu|]; cbn [rbind]; [|destruct (cget b id); reflexivity].
    rewrite !cget_cset by exact NE. destruct (cget b id) as [q|]; cbn [rbind]; [|reflexivity]. reflexivity.
  Qed.
  Lemma cwr_dir (u v : ct) x rows w : eqc u v -> cwr u x rows = Ok w -> exists w', cwr v x rows = Ok w' /\ eqc w w' /\ (mwf u -> mwf w) /\ (mwf v -> mwf w') /\ In x (keys w).
  Proof.
    intros Q H. unfold cwr in *. rewrite <- (eqc_cget u v x Q). apply rbind_ok in H as (p & HP & H). rewrite HP. cbn [rbind]. injection H as <-. eexists. split; [reflexivity|]. split; [apply eqc_cset; exact Q|].
    split; [apply mwf_mset|]. split; [apply mwf_mset|]. apply keys_cset. left. reflexivity.
  Qed.

  Theorem mul_dir level (o o' : order) crs (op0 op0' op1 op1' : ct) h0 h0' h1 h1' rs out out' v :
    (level < length (Qm pp))%nat -> order_ok o -> order_ok o' -> eqc op0 op0' -> eqc op1 op1' -> eqc out out' -> mwf out -> mwf out' -> ctLevel out = Ok level ->
    agree level h0 h0' op0 op0' -> agree level h1 h1' op1 op1' -> gvok level rlk_d h0 op0 rs (parties op0) -> gvok level rlk_b h1 op1 rs (parties op1) ->
    MulAndRelinHoisted pp o crs op0 op1 h0 h1 rs out = Ok v -> exists v', MulAndRelinHoisted pp o' crs op0' op1' h0' h1' rs out' = Ok v' /\ eqc v v' /\ mwf v /\ mwf v'.
  Proof.
    intros HL O O' Q0 Q1 QO MO MO' LV AG0 AG1 GV0 GV1 H. unfold MulAndRelinHoisted in *. rewrite <- (eqc_level out out' QO), LV. rewrite LV in H. cbn [rbind] in *.
    apply rbind_ok in H as (l0 & HL0 & H). rewrite <- (eqc_level op0 op0' Q0), HL0. cbn [rbind]. destruct (l0 <? level)%nat; [discriminate|].
    apply rbind_ok in H as (ids0 & HI0 & H). apply rbind_ok in H as (ids1 & HI1 & H).
    assert (PM : forall n m (op op' : ct) k ids, eqc op op' -> IDSetOf (o k) op = Ok ids -> exists ids', IDSetOf (o' k) op' = Ok ids' /\ Permutation (o n (keys ids)) (o' m (keys ids')) /\ NoDup (o n (keys ids)) /\ (forall x, In x (o n (keys ids)) <-> In x (parties op)) /\ (forall x, is_has ids x = is_has ids' x) /\ mwf ids /\ mwf ids')
      by (intros n m op op' k ids Q E; apply (ids_perm (o k) (o' k) (o n) (o' m) op op' ids); trivial; intros ?; first [apply O|apply O']).
    destruct (PM 2%nat 2%nat op0 op0' 0%nat ids0 Q0 HI0) as (ids0' & HI0' & P2 & ND2 & IL2 & HS & _). destruct (PM 3%nat 3%nat op1 op1' 1%nat ids1 Q1 HI1) as (ids1' & HI1' & P3 & ND3 & IL3 & _).
    assert (PM0 : forall n, Permutation (o n (keys ids0)) (o' n (keys ids0')) /\ NoDup (o n (keys ids0)) /\ forall x, In x (o n (keys ids0)) <-> In x (parties op0)).
    { intros n. destruct (PM n n op0 op0' 0%nat ids0 Q0 HI0) as (i & E & A & B & C & _). assert (i = ids0') by congruence. subst i. split; [exact A|split; [exact B|exact C]]. }
    assert (PM1 : forall n, Permutation (o n (keys ids1)) (o' n (keys ids1')) /\ NoDup (o n (keys ids1)) /\ forall x, In x (o n (keys ids1)) <-> In x (parties op1)).
    { intros n. destruct (PM n n op1 op1' 1%nat ids1 Q1 HI1) as (i & E & A & B & C & _). assert (i = ids1') by congruence. subst i. split; [exact A|split; [exact B|exact C]]. }
    rewrite HI0'. cbn [rbind]. rewrite HI1'. cbn [rbind]. clear PM.
    apply rbind_ok in H as (x & HX & H). destruct (genVec_perm level rlk_d h0 h0' op0 op0' rs _ _ HL P2 ND2 ltac:(intros z; apply IL2) AG0 ltac:(intros z I; apply GV0, IL2, I) x HX) as (x' & HX' & <-). rewrite HX'. cbn [rbind].
    apply rbind_ok in H as (y & HY & H). destruct (genVec_perm level rlk_b h1 h1' op1 op1' rs _ _ HL P3 ND3 ltac:(intros z; apply IL3) AG1 ltac:(intros z I; apply GV1, IL3, I) y HY) as (y' & HY' & <-). rewrite HY'. cbn [rbind].
    (* the products of the components *)
    apply rbind_ok in H as (pr & HPR & H).
    assert (PR : exists pr', prodStage pp level o' op0' op1' ids0' ids1' out' = Ok pr' /\ eqc pr pr' /\ mwf pr /\ mwf pr' /\ zok level pr).
    { rewrite prod_own in HPR. rewrite prod_own. rewrite <- (eqc_cgetL op0 op0' id0 level Q0), <- (eqc_cgetL op1 op1' id0 level Q1).
      apply rbind_ok in HPR as (a0 & HA & HPR). apply rbind_ok in HPR as (b0 & HB & HPR). rewrite HA. cbn [rbind]. rewrite HB. cbn [rbind]. cbv zeta in *.
      set (aN := lvlQ1 pp level r_mform (lvlQ1 pp level ntt (prows a0))) in *. set (bN := lvlQ1 pp level ntt (prows b0)) in *.
      apply rbind_ok in HPR as (c & HC & HPR). destruct (cwr_dir out out' id0 _ c QO HC) as (c' & HC' & QC & MC & MC' & IC). specialize (MC MO). specialize (MC' MO'). rewrite HC'. cbn [rbind].
      apply rbind_ok in HPR as (d & HD & HPR). destruct (PM0 4%nat) as (P4 & ND4 & _).
      rewrite (rfold_extI (own (pG4 level op0' (lvlQ1 pp level r_mform bN))) (own (pG4 level op0 (lvlQ1 pp level r_mform bN)))) by (intros b id _; unfold own, pG4; rewrite (eqc_cgetL op0 op0' id level Q0); reflexivity).
      destruct (own_dir _ _ _ c c' P4 ND4 QC d HD) as (d' & HD' & QD). rewrite HD'. cbn [rbind].
      apply rbind_ok in HPR as (e & HE & HPR). destruct (PM1 5%nat) as (P5 & ND5 & _).
      rewrite (rfold_extI (own (pG5 level op1' ids0' aN)) (own (pG5 level op1 ids0 aN))) by (intros b id _; unfold own, pG5; rewrite (eqc_cgetL op1 op1' id level Q1), (HS id); reflexivity).
      destruct (own_dir _ _ _ d d' P5 ND5 QD e HE) as (e' & HE' & QE). rewrite HE'. cbn [rbind].
      pose proof (own_mwf _ _ _ _ HE (own_mwf _ _ _ _ HD MC)) as ME. pose proof (own_mwf _ _ _ _ HE' (own_mwf _ _ _ _ HD' MC')) as ME'.
      destruct (keys_perm e e' (o 6%nat) (o' 6%nat) ltac:(intros ?; apply O) ltac:(intros ?; apply O') ME ME' QE) as [P6 ND6].
      destruct (own_dir _ _ _ e e' P6 ND6 QE pr HPR) as (pr' & HP' & QP). exists pr'. split; [exact HP'|]. split; [exact QP|]. split; [apply (own_mwf _ _ _ _ HPR ME)|]. split; [apply (own_mwf _ _ _ _ HP' ME')|].
      unfold Determ.zok. refine (own_est (pG6 level) _ (rowsok level) id0 _ _ e pr HPR).
      - intros q p G. unfold pG6 in G. injection G as <-. split; [apply tab_length|]. intros j Hj. cbn [prows]. rewrite row_lvlQ1 by exact Hj. apply canon_inr, intt_canon. apply (okmod_md pp WF level (MQ j) HL). cbn. exact Hj.
      - apply (Permutation_in _ (Permutation_sym (O 6%nat (keys e)))). apply (own_keys _ _ _ _ HE). apply (own_keys _ _ _ _ HD). exact IC. }
    destruct PR as (pr' & HPR' & QP & MP & MP' & ZP). rewrite HPR'. cbn [rbind].
    rewrite x_own in H. rewrite x_own. apply rbind_ok in H as (g & HG & H). destruct (PM1 7%nat) as (P7 & ND7 & IL7).
    rewrite (rfold_extI (own (pG7 level h1' op1' x)) (own (pG7 level h1 op1 x))).
    2:{ intros b id I. unfold own, pG7. rewrite (proj2 (AG1 id ltac:(apply IL7, (Permutation_in _ (Permutation_sym P7) I)))). reflexivity. }
    destruct (own_dir _ _ _ pr pr' P7 ND7 QP g HG) as (g' & HG' & QG). rewrite HG'. cbn [rbind].
    pose proof (own_mwf _ _ _ _ HG MP) as MG. pose proof (own_mwf _ _ _ _ HG' MP') as MG'.
    assert (ZG : zok level g).
    { unfold Determ.zok. refine (own_keep (pG7 level h1 op1 x) _ (rowsok level) id0 _ pr g HG ZP). intros q p I. apply IL7, in_parties in I. tauto. }
    destruct (PM0 8%nat) as (P8 & ND8 & IL8).
    assert (N0 : ~ In id0 (o 8%nat (keys ids0))) by (intros I; apply IL8, in_parties in I; tauto).
    assert (N0' : ~ In id0 (o' 8%nat (keys ids0'))) by (intros I; apply N0; apply (Permutation_in _ (Permutation_sym P8) I)).
    rewrite v_acc in H by exact N0. rewrite v_acc by exact N0'.
    rewrite (rfold_extI (acc pp level (vG level crs rs h0' op0' y)) (acc pp level (vG level crs rs h0 op0 y))).
    2:{ intros b id I. unfold acc. destruct (cget b id) as [q|]; cbn [rbind]; [|reflexivity]. unfold vG. rewrite (proj2 (AG0 id ltac:(apply IL8, (Permutation_in _ (Permutation_sym P8) I)))). reflexivity. }
    assert (GC0 : forall id q e p, vG level crs rs h0 op0 y id q = Ok (e, p) -> canons pp level e).
    { intros id q e p G. unfold vG in G. apply rbind_ok in G as (k & _ & G). apply rbind_ok in G as (w & _ & G). apply rbind_ok in G as (dw & _ & G). apply rbind_ok in G as (ev & E & G). apply rbind_ok in G as (u & _ & G). apply rbind_ok in G as (eu & _ & G).
      assert (ev = e) by congruence. subst ev. apply (ExtH_canon pp WF level dw (rlk_v k) e HL E). }
    destruct (acc_dir pp WF level _ _ _ g g' HL N0 ltac:(intros id q e p _; apply GC0) P8 ND8 ZG QG v H) as (v' & HV & QV). exists v'. split; [exact HV|]. split; [exact QV|].
    split; [apply (acc_keep pp WF level _ _ HL N0 ltac:(intros id q e p _; apply GC0) g v H MG ZG)|apply (acc_keep pp WF level _ _ HL N0' ltac:(intros id q e p _; apply GC0) g' v' HV MG' (zok_eqc pp level _ _ QG ZG))].
  Qed.
End Mul.
