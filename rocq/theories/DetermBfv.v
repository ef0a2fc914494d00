(** C74: BFV's multiplication gives the same ciphertext in any iteration order. *)
From Coq Require Import Znumtheory Setoid Morphisms Permutation.
From Verif Require Import Base IdSetModel KeySetModel NumTheory Negacyclic Ntt Word BasisExt BasisExtProofs DecompProofs BasisSpec Rows RlweModel SchemeSpec ExtProd ExtProps KeyGenModel Galois KeyGenProofs CtModel CtSpec CtProofs EncDecProofs KeySwitchModel Digits KsLoops RotProofs ConjProofs MulProofs Instance PropsEnc PropsRotate PropsKeySwitch BfvModel PropsBfv BfvMulModel BfvConv BfvGadget BfvDig BfvKey BfvCross BfvMulProofs PropsBfvConv PropsBfvMul Determ DetermOps DetermMul.
Open Scope Z_scope.

(** a loop over two accumulators that do not interact is two loops *)
Lemma rfold_pair {A B C} (f : A -> C -> res A) (g : B -> C -> res B) l : forall a b,
  rfold (fun acc id => x <- f (fst acc) id ;; y <- g (snd acc) id ;; Ok (x, y)) l (a, b) = (x <- rfold f l a ;; y <- rfold g l b ;; Ok (x, y)).
Proof.
  induction l as [|z l IH]; intros a b; cbn [rfold]; [reflexivity|]. cbn [fst snd].
  destruct (f a z) as [a1|]; cbn [rbind]; [|reflexivity]. destruct (g b z) as [b1|]; cbn [rbind]; [apply IH|]. destruct (rfold f l a1); reflexivity.
Qed.
Lemma perm_filter (p p' : string -> bool) l l' : Permutation l l' -> NoDup l -> (forall x, p x = p' x) -> Permutation (filter p l) (filter p' l') /\ NoDup (filter p l).
Proof.
  intros P ND E. split; [|apply NoDup_filter; exact ND]. apply NoDup_Permutation; [apply NoDup_filter; exact ND|apply NoDup_filter, (Permutation_NoDup P ND)|].
  intros x. rewrite !filter_In, E. split; intros [A B]; (split; [|exact B]); [apply (Permutation_in _ P A)|apply (Permutation_in _ (Permutation_sym P) A)].
Qed.

Section Mac.
  Context {N : nat} (pp : rparams) (WF : wfp N pp).
  Lemma mac_perm level (D : string -> res (swk N * swk N)) l l' : (level < length (Qm pp))%nat -> Permutation l l' -> NoDup l ->
    (forall id, In id l -> exists ds k, D id = Ok (ds, k) /\ (beta pp level <= length ds)%nat /\ (beta pp level <= length k)%nat /\
      forall i m, (i < beta pp level)%nat -> vi pp level m -> canon (md pp m) (fqp (nth i ds dQP) m) /\ inr (md pp m) (fqp (nth i k dQP) m)) ->
    dir eq (rfold (fun acc id => '(ds, k) <- D id ;; macAdd pp level k ds acc) l (tab (beta pp level) (fun _ => zeroQP pp level)))
           (rfold (fun acc id => '(ds, k) <- D id ;; macAdd pp level k ds acc) l' (tab (beta pp level) (fun _ => zeroQP pp level))).
  Proof.
    intros HL P ND GV. set (f := fun acc id => _).
    assert (F : forall x acc, In x l -> accok pp level acc -> exists ds k, f acc x = Ok (map (fun i => lvl3 pp level r_mont_add (nth i k dQP) (nth i ds dQP) (nth i acc dQP)) (seq 0 (beta pp level))) /\
       D x = Ok (ds, k) /\ forall i m, (i < beta pp level)%nat -> vi pp level m -> canon (md pp m) (fqp (nth i ds dQP) m) /\ inr (md pp m) (fqp (nth i k dQP) m)).
    { intros x acc I [A1 A2]. destruct (GV x I) as (ds & k & H1 & H3 & H4 & H5). exists ds, k. unfold f. rewrite H1. cbn [rbind]. split; [apply macAdd_map; [exact H4|exact H3|lia]|]. split; [reflexivity|exact H5]. }
    set (b0 := tab (beta pp level) (fun _ => zeroQP pp level)).
    assert (A0 : accok pp level b0).
    { split; [apply tab_length|]. intros i m Hi V. unfold b0. rewrite nth_tab by exact Hi. assert (E : fqp (zeroQP pp level : polyQP N) m = R0) by (destruct m as [j|j]; cbn in V; cbn [fqp zeroQP qpQ qpP]; unfold row; rewrite nth_tab by lia; reflexivity).
      rewrite E. apply canon_inr, canon_zero. apply (okmod_md pp WF level m HL V). }
    apply (rfold_perm eq (@eq_refl _) (@eq_trans _) (accok pp level)); trivial.
    - intros x b c b' _ <- H. exists b'. split; [exact H|reflexivity].
    - intros x b b' I A H. destruct (F x b I A) as (ds & k & H1 & _ & H5). rewrite H1 in H. injection H as <-. apply macAdd_accok; assumption.
    - intros x y b b1 b2 Ix Iy _ A H1 H2.
      destruct (F x b Ix A) as (ds & k & G1 & X1 & G5). rewrite G1 in H1. injection H1 as <-.
      pose proof (macAdd_accok pp WF level k ds b HL A G5) as AX.
      destruct (F y _ Iy AX) as (ds2 & k2 & G2 & Y1 & G6). rewrite G2 in H2. injection H2 as <-.
      destruct (F y b Iy A) as (ds2' & k2' & G3 & Y1' & G7). assert (ds2' = ds2) by congruence. assert (k2' = k2) by congruence. subst ds2' k2'.
      pose proof (macAdd_accok pp WF level k2 ds2 b HL A G7) as AY.
      destruct (F x _ Ix AY) as (ds' & k' & G4 & X1' & G8). assert (ds' = ds) by congruence. assert (k' = k) by congruence. subst ds' k'.
      eexists _, _. split; [exact G3|]. split; [exact G4|]. apply map_ext_in. intros i Hi. apply in_seq in Hi.
      rewrite !(nth_map' _ _ _ 0%nat) by (rewrite seq_length; lia). rewrite !seq_nth by lia. cbn [plus]. apply lvl3_comm; [exact WF|exact HL|]. intros m V. split; [apply A; [lia|exact V]|]. destruct (G5 i m ltac:(lia) V) as [Z1 Z2]. destruct (G7 i m ltac:(lia) V) as [Z3 Z4]. repeat (split; [assumption|]). assumption.
  Qed.
End Mac.

Section Bfv.
  Context {N : nat} (b : bparams) (WB : wfb N b).
  Notation R := (R N). Notation ct := (ctT N). Notation pp := (ppQ b). Notation L := (maxLevel (ppQ b)). Notation n := (length (bQ b)). Notation be := (bbeta b).
  Notation order := IdSetModel.order. Notation eqc := (@eqc N).
  Hypothesis HD : (n mod alpha (ppQ b) = 0)%nat.
  Let WF : wfp N pp := wf_ppQ b WB.

  Definition bagree h h' (op op' : ct) : Prop := forall id, In id (parties op) -> bhdig b L h op id = bhdig b L h' op' id.
  Definition bgvok (s1 s2 : bRelinKey N -> swk N) h (op : ct) rs (l : list string) : Prop := forall id, In id l -> exists d1 d2 k, bhdig b L h op id = Ok (d1, d2) /\ brlk_get rs id = Ok k /\
    (be <= length d1)%nat /\ (be <= length d2)%nat /\ (be <= length (s1 k))%nat /\ (be <= length (s2 k))%nat /\
    forall i m, (i < be)%nat -> vi pp L m -> canon (md pp m) (fqp (nth i d1 dQP) m) /\ inr (md pp m) (fqp (nth i (s1 k) dQP) m) /\ canon (md pp m) (fqp (nth i d2 dQP) m) /\ inr (md pp m) (fqp (nth i (s2 k) dQP) m).

  Definition D1 (s1 : bRelinKey N -> swk N) h (op : ct) rs (id : string) : res (swk N * swk N) := d <- bhdig b L h op id ;; k <- brlk_get rs id ;; Ok (fst d, s1 k).
  Definition D2 (s2 : bRelinKey N -> swk N) h (op : ct) rs (id : string) : res (swk N * swk N) := d <- bhdig b L h op id ;; k <- brlk_get rs id ;; Ok (snd d, s2 k).
  Lemma bGenVec_split s1 s2 h (op : ct) rs l : bGenVec b L s1 s2 h op rs l =
    let z := tab (beta pp L) (fun _ => zeroQP pp L) in
    x1 <- rfold (fun acc id => '(ds, k) <- D1 s1 h op rs id ;; macAdd pp L k ds acc) l z ;;
    x2 <- rfold (fun acc id => '(ds, k) <- D2 s2 h op rs id ;; macAdd pp L k ds acc) l z ;;
    Ok (map (lvl1 pp L r_mform) x1, map (lvl1 pp L r_mform) x2).
  Proof.
    unfold bGenVec. cbv zeta. set (z := tab (beta pp L) (fun _ => zeroQP pp L)).
    set (f := fun (acc : swk N) id => '(ds, k) <- D1 s1 h op rs id ;; macAdd pp L k ds acc). set (g := fun (acc : swk N) id => '(ds, k) <- D2 s2 h op rs id ;; macAdd pp L k ds acc).
    rewrite (rfold_extI _ (fun acc id => x <- f (fst acc) id ;; y <- g (snd acc) id ;; Ok (x, y))).
    - rewrite (rfold_pair f g). destruct (rfold f l z); cbn [rbind]; [|reflexivity]. destruct (rfold g l z); reflexivity.
    - intros [a1 a2] id _. unfold f, g, D1, D2. cbn [fst snd]. destruct (bhdig b L h op id) as [[d1 d2]|]; cbn [rbind]; [|reflexivity]. destruct (brlk_get rs id) as [k|]; cbn [rbind]; [|reflexivity]. reflexivity.
  Qed.
  Lemma bGenVec_perm s1 s2 h h' (op op' : ct) rs l l' : Permutation l l' -> NoDup l -> (forall x, In x l -> In x (parties op)) -> bagree h h' op op' -> bgvok s1 s2 h op rs l ->
    dir eq (bGenVec b L s1 s2 h op rs l) (bGenVec b L s1 s2 h' op' rs l').
  Proof.
    intros P ND SP AG GV v H. pose proof (L_Qm b WB) as HL. rewrite bGenVec_split in H. rewrite bGenVec_split. cbv zeta in *.
    assert (AG' : forall id, In id l' -> bhdig b L h' op' id = bhdig b L h op id) by (intros id I; symmetry; apply AG, SP, (Permutation_in _ (Permutation_sym P) I)).
    rewrite (rfold_extI (fun acc id => '(ds, k) <- D1 s1 h' op' rs id ;; macAdd pp L k ds acc) (fun acc id => '(ds, k) <- D1 s1 h op rs id ;; macAdd pp L k ds acc)) by (intros a id I; unfold D1; rewrite (AG' id I); reflexivity).
    rewrite (rfold_extI (fun acc id => '(ds, k) <- D2 s2 h' op' rs id ;; macAdd pp L k ds acc) (fun acc id => '(ds, k) <- D2 s2 h op rs id ;; macAdd pp L k ds acc)) by (intros a id I; unfold D2; rewrite (AG' id I); reflexivity).
    apply rbind_ok in H as (x1 & H1 & H). apply rbind_ok in H as (x2 & H2 & H).
    destruct (mac_perm pp WF L (D1 s1 h op rs) l l' HL P ND ltac:(intros id I; destruct (GV id I) as (d1 & d2 & k & A1 & A2 & A3 & A4 & A5 & A6 & A7); exists d1, (s1 k); unfold D1; rewrite A1; cbn [rbind]; rewrite A2; cbn [rbind fst]; split; [reflexivity|split; [exact A3|split; [exact A5|intros i m Hi V; destruct (A7 i m Hi V) as (B1 & B2 & _); split; assumption]]]) x1 H1) as (y1 & K1 & <-).
    destruct (mac_perm pp WF L (D2 s2 h op rs) l l' HL P ND ltac:(intros id I; destruct (GV id I) as (d1 & d2 & k & A1 & A2 & A3 & A4 & A5 & A6 & A7); exists d2, (s2 k); unfold D2; rewrite A1; cbn [rbind]; rewrite A2; cbn [rbind snd]; split; [reflexivity|split; [exact A4|split; [exact A6|intros i m Hi V; destruct (A7 i m Hi V) as (_ & _ & B1 & B2); split; assumption]]]) x2 H2) as (y2 & K2 & <-).
    rewrite K1. cbn [rbind]. rewrite K2. cbn [rbind]. exists v. split; [exact H|reflexivity].
  Qed.
  Lemma bgvok_get h (op : ct) Xv DB (rs : brlkset N) (s r : string -> R) a1 a2 u B T (sel : bool) l : bparty_digits b h op Xv DB -> (forall id, In id l -> In id (parties op)) ->
    (forall id, In id l -> exists key, brlk_get rs id = Ok key /\ brelin_ok b a1 a2 u (s id) (r id) B T key) ->
    bgvok (if sel then br_b1 else br_d1) (if sel then br_b2 else br_d2) h op rs l.
  Proof.
    intros DG SP HK id I. destruct (DG id (SP id I)) as (d1 & d2 & D & E & (L1 & L2 & DD)). destruct (HK id I) as (k & K & eb & ed & ev & (K1 & K2 & K3 & K4 & _) & _ & _ & KK & _).
    exists d1, d2, k. split; [exact E|]. split; [exact K|]. split; [exact L1|]. split; [exact L2|]. split; [destruct sel; assumption|]. split; [destruct sel; assumption|].
    intros i m Hi V. destruct (DD i ltac:(lia)) as (_ & X1 & _). destruct (DD (be + i)%nat ltac:(lia)) as (_ & X2 & _). destruct (KK i ltac:(lia)) as (_ & _ & Y1 & Y2). destruct (KK (be + i)%nat ltac:(lia)) as (_ & _ & Y3 & Y4).
    specialize (X1 m V). specialize (X2 m V). specialize (Y1 m V). specialize (Y2 m V). specialize (Y3 m V). specialize (Y4 m V). rewrite pick_lo in X1, Y1, Y2 by exact Hi. rewrite pick_hi in X2, Y3, Y4.
    split; [apply X1|]. destruct sel; (split; [apply Y1 || apply Y2|]); (split; [apply X2|]); [apply Y3|apply Y4].
  Qed.

  (** the products *)
  Definition qG4 (op0 : ct) bM (id : string) (q : poly N) : res (poly N) := p <- cgetL op0 id (levelR b) ;; z <- Quantize b (lvlQ2 (ppR b) (levelR b) r_mont bM (lvlQ1 (ppR b) (levelR b) ntt (prows p))) ;; Ok (Pol z (pntt q)).
  Definition qG6 (op0 op1 : ct) aN bM (id : string) (q : poly N) : res (poly N) := p <- cgetL op1 id (levelR b) ;; q' <- cgetL op0 id (levelR b) ;;
    z <- Quantize b (lvlQ3 (ppR b) (levelR b) r_mont_add bM (lvlQ1 (ppR b) (levelR b) ntt (prows q')) (lvlQ2 (ppR b) (levelR b) r_mont aN (lvlQ1 (ppR b) (levelR b) ntt (prows p)))) ;; Ok (Pol z (pntt q)).
  Lemma bprod_own (o : order) (op0 op1 : ct) ids0 ids1 out : bProdStage b o op0 op1 ids0 ids1 out =
    a0 <- cgetL op0 id0 (levelR b) ;; b0 <- cgetL op1 id0 (levelR b) ;;
    let aN := lvlQ1 (ppR b) (levelR b) r_mform (lvlQ1 (ppR b) (levelR b) ntt (prows a0)) in let bN := lvlQ1 (ppR b) (levelR b) ntt (prows b0) in
    z <- Quantize b (lvlQ2 (ppR b) (levelR b) r_mont aN bN) ;;
    out <- cwr out id0 z ;;
    out <- rfold (own (qG4 op0 (lvlQ1 (ppR b) (levelR b) r_mform bN))) (filter (fun x => negb (is_has ids1 x)) (o 4%nat (keys ids0))) out ;;
    out <- rfold (own (qG4 op1 aN)) (filter (fun x => negb (is_has ids0 x)) (o 5%nat (keys ids1))) out ;;
    rfold (own (qG6 op0 op1 aN (lvlQ1 (ppR b) (levelR b) r_mform bN))) (filter (is_has ids0) (o 6%nat (keys ids1))) out.
  Proof.
    unfold bProdStage. cbv zeta. destruct (cgetL op0 id0 (levelR b)) as [a0|]; cbn [rbind]; [|reflexivity]. destruct (cgetL op1 id0 (levelR b)) as [b0|]; cbn [rbind]; [|reflexivity].
    destruct (Quantize b _) as [z|]; cbn [rbind]; [|reflexivity]. destruct (cwr out id0 z) as [c|]; cbn [rbind]; [|reflexivity].
    rewrite rfold_skip. rewrite (rfold_extI _ (own (qG4 op0 (lvlQ1 (ppR b) (levelR b) r_mform (lvlQ1 (ppR b) (levelR b) ntt (prows b0)))))).
    2:{ intros w id _. unfold own, qG4, cwr. destruct (cgetL op0 id (levelR b)); cbn [rbind]; [|destruct (cget w id); reflexivity]. destruct (Quantize b _); cbn [rbind]; destruct (cget w id); reflexivity. }
    destruct (rfold _ _ c) as [c1|]; cbn [rbind]; [|reflexivity].
    rewrite rfold_skip. rewrite (rfold_extI _ (own (qG4 op1 (lvlQ1 (ppR b) (levelR b) r_mform (lvlQ1 (ppR b) (levelR b) ntt (prows a0)))))).
    2:{ intros w id _. unfold own, qG4, cwr. destruct (cgetL op1 id (levelR b)); cbn [rbind]; [|destruct (cget w id); reflexivity]. destruct (Quantize b _); cbn [rbind]; destruct (cget w id); reflexivity. }
    destruct (rfold _ _ c1) as [c2|]; cbn [rbind]; [|reflexivity].
    rewrite rfold_only. apply rfold_extI. intros w id _. unfold own, qG6, cwr. destruct (cgetL op1 id (levelR b)); cbn [rbind]; [|destruct (cget w id); reflexivity]. destruct (cgetL op0 id (levelR b)); cbn [rbind]; [|destruct (cget w id); reflexivity]. destruct (Quantize b _); cbn [rbind]; destruct (cget w id); reflexivity.
  Qed.
  Lemma qG4_eqc (op op' : ct) x : eqc op op' -> forall id q, qG4 op' x id q = qG4 op x id q.
  Proof. intros Q id q. unfold qG4. rewrite (eqc_cgetL op op' id (levelR b) Q). reflexivity. Qed.
  Lemma qG6_eqc (op0 op0' op1 op1' : ct) x y : eqc op0 op0' -> eqc op1 op1' -> forall id q, qG6 op0' op1' x y id q = qG6 op0 op1 x y id q.
  Proof. intros Q Q' id q. unfold qG6. rewrite (eqc_cgetL op0 op0' id (levelR b) Q), (eqc_cgetL op1 op1' id (levelR b) Q'). reflexivity. Qed.
  Lemma own_ext (G G' : string -> poly N -> res (poly N)) l (c : ct) : (forall id q, G' id q = G id q) -> rfold (own G') l c = rfold (own G) l c.
  Proof. intros H. apply rfold_extI. intros w id _. unfold own. destruct (cget w id); cbn [rbind]; [|reflexivity]. rewrite H. reflexivity. Qed.
  Lemma bprod_dir (o o' : order) (op0 op0' op1 op1' : ct) ids0 ids0' ids1 ids1' out out' v : eqc op0 op0' -> eqc op1 op1' -> eqc out out' ->
    (forall k, Permutation (o k (keys ids0)) (o' k (keys ids0')) /\ NoDup (o k (keys ids0))) -> (forall k, Permutation (o k (keys ids1)) (o' k (keys ids1')) /\ NoDup (o k (keys ids1))) ->
    (forall x, is_has ids0 x = is_has ids0' x) -> (forall x, is_has ids1 x = is_has ids1' x) ->
    bProdStage b o op0 op1 ids0 ids1 out = Ok v -> exists v', bProdStage b o' op0' op1' ids0' ids1' out' = Ok v' /\ eqc v v'.
  Proof.
    intros Q0 Q1 QO P0 P1 S0 S1 H. rewrite bprod_own in H. rewrite bprod_own. rewrite <- (eqc_cgetL op0 op0' id0 _ Q0), <- (eqc_cgetL op1 op1' id0 _ Q1).
    apply rbind_ok in H as (a0 & HA & H). apply rbind_ok in H as (b0 & HB & H). rewrite HA. cbn [rbind]. rewrite HB. cbn [rbind]. cbv zeta in *.
    set (aN := lvlQ1 (ppR b) (levelR b) r_mform (lvlQ1 (ppR b) (levelR b) ntt (prows a0))) in *. set (bN := lvlQ1 (ppR b) (levelR b) ntt (prows b0)) in *.
    apply rbind_ok in H as (z & HZ & H). rewrite HZ. cbn [rbind]. apply rbind_ok in H as (c & HC & H). destruct (cwr_dir out out' id0 z c QO HC) as (c' & HC' & QC & _). rewrite HC'. cbn [rbind].
    destruct (P0 4%nat) as [P4 N4]. destruct (P1 5%nat) as [P5 N5]. destruct (P1 6%nat) as [P6 N6].
    destruct (perm_filter (fun x => negb (is_has ids1 x)) (fun x => negb (is_has ids1' x)) _ _ P4 N4 ltac:(intros x; cbv beta; rewrite (S1 x); reflexivity)) as [F4 M4].
    destruct (perm_filter (fun x => negb (is_has ids0 x)) (fun x => negb (is_has ids0' x)) _ _ P5 N5 ltac:(intros x; cbv beta; rewrite (S0 x); reflexivity)) as [F5 M5].
    destruct (perm_filter (is_has ids0) (is_has ids0') _ _ P6 N6 S0) as [F6 M6].
    apply rbind_ok in H as (d & HE & H). rewrite (own_ext (qG4 op0 (lvlQ1 (ppR b) (levelR b) r_mform bN)) _ _ _ (qG4_eqc op0 op0' _ Q0)). destruct (own_dir _ _ _ c c' F4 M4 QC d HE) as (d' & HE' & QD). rewrite HE'. cbn [rbind].
    apply rbind_ok in H as (e & HF & H). rewrite (own_ext (qG4 op1 aN) _ _ _ (qG4_eqc op1 op1' _ Q1)). destruct (own_dir _ _ _ d d' F5 M5 QD e HF) as (e' & HF' & QE). rewrite HF'. cbn [rbind].
    rewrite (own_ext (qG6 op0 op1 aN (lvlQ1 (ppR b) (levelR b) r_mform bN)) _ _ _ (qG6_eqc op0 op0' op1 op1' _ _ Q0 Q1)). exact (own_dir _ _ _ e e' F6 M6 QE v H).
  Qed.

  Definition qG7 h1 (op1 : ct) x1 x2 (id : string) (q : poly N) : res (poly N) := e <- bExtOp b L h1 op1 id x1 x2 ;; Ok (Pol (lvlQ2 pp L r_add (prows q) e) (pntt q)).
  Lemma bx_own (o : order) h1 (op1 : ct) ids1 x1 x2 out : bxStage b L o h1 op1 ids1 x1 x2 out = rfold (own (qG7 h1 op1 x1 x2)) (o 7%nat (keys ids1)) out.
  Proof. apply rfold_extI. intros w id _. unfold own, qG7, cwr. destruct (bExtOp _ _ _ _ _ _ _); cbn [rbind]; destruct (cget w id); reflexivity. Qed.
  Definition bvG (rs : brlkset N) h0 (op0 : ct) y1 y2 u (id : string) (q : poly N) : res (list R * poly N) :=
    k <- brlk_get rs id ;; w <- bExtOp b L h0 op0 id y1 y2 ;; dw <- Decompose pp L (Pol w false) ;; ev <- ExternalProductHoisted pp L dw (br_v k) ;;
    eu <- ExternalProductHoisted pp L dw u ;; Ok (ev, Pol (lvlQ2 pp L r_add (prows q) eu) (pntt q)).
  Lemma bv_acc (o : order) crs (rs : brlkset N) h0 (op0 : ct) ids0 y1 y2 out : ~ In id0 (o 8%nat (keys ids0)) ->
    bvStageH b L o crs rs h0 op0 ids0 y1 y2 out = u <- crs_get crs (-1) ;; rfold (acc pp L (bvG rs h0 op0 y1 y2 u)) (o 8%nat (keys ids0)) out.
  Proof.
    intros N0. unfold bvStageH. destruct (crs_get crs (-1)) as [u|]; cbn [rbind]; [|reflexivity]. apply rfold_extI. intros w id I. assert (NE : id <> id0) by (intros EE; subst; contradiction). unfold acc, bvG, cwr.
    destruct (brlk_get rs id) as [k|]; cbn [rbind]; [|destruct (cget w id); reflexivity].
    destruct (bExtOp _ _ _ _ _ _ _) as [x|]; cbn [rbind]; [|destruct (cget w id); reflexivity].
    destruct (Decompose _ _ _) as [dw|]; cbn [rbind]; [|destruct (cget w id); reflexivity].
    destruct (ExternalProductHoisted _ _ _ (br_v k)) as [ev|]; cbn [rbind]; [|destruct (cget w id); reflexivity].
    destruct (cget w id0) as [q0|]; cbn [rbind].
    2:{ destruct (cget w id); cbn [rbind]; [|reflexivity]. destruct (ExternalProductHoisted _ _ _ _); reflexivity. }
    destruct (ExternalProductHoisted _ _ _ _) as [eu|]; cbn [rbind]; [|destruct (cget w id); reflexivity].
    rewrite !cget_cset by exact NE. destruct (cget w id) as [q|]; reflexivity.
  Qed.

  Theorem bmul_dir (o o' : order) crs (op0 op0' op1 op1' : ct) h0 h0' h1 h1' rs out out' (s r : string -> R) a1 a2 u B T Xv Yv DB0 DB1 v :
    order_ok o -> order_ok o' -> eqc op0 op0' -> eqc op1 op1' -> eqc out out' -> rct b op0 Xv -> rct b op1 Yv -> wfct pp L false out -> (forall x, In x (keys out) <-> In x (keys op0) \/ In x (keys op1)) ->
    bagree h0 h0' op0 op0' -> bagree h1 h1' op1 op1' -> bparty_digits b h0 op0 Xv DB0 -> bparty_digits b h1 op1 Yv DB1 ->
    (forall id, In id (parties op0) \/ In id (parties op1) -> exists key, brlk_get rs id = Ok key /\ brelin_ok b a1 a2 u (s id) (r id) B T key) ->
    MulAndRelinBFVHoisted b o crs op0 op1 h0 h1 rs out = Ok v -> exists v', MulAndRelinBFVHoisted b o' crs op0' op1' h0' h1' rs out' = Ok v' /\ eqc v v'.
  Proof.
    intros O O' Q0 Q1 QO W0 W1 WO KS AG0 AG1 DG0 DG1 HK H. pose proof (L_Qm b WB) as HL. unfold MulAndRelinBFVHoisted in *. rewrite <- (eqc_level out out' QO). rewrite (wfct_level pp _ _ _ WO) in H. rewrite (wfct_level pp _ _ _ WO). cbn [rbind] in *.
    apply rbind_ok in H as (l0 & HL0 & H). rewrite <- (eqc_level op0 op0' Q0), HL0. cbn [rbind]. destruct (l0 <? L)%nat; [discriminate|].
    apply rbind_ok in H as (ids0 & HI0 & H). apply rbind_ok in H as (ids1 & HI1 & H).
    assert (PM : forall n m (op op' : ct) k ids, eqc op op' -> IDSetOf (o k) op = Ok ids -> exists ids', IDSetOf (o' k) op' = Ok ids' /\ Permutation (o n (keys ids)) (o' m (keys ids')) /\ NoDup (o n (keys ids)) /\ (forall x, In x (o n (keys ids)) <-> In x (parties op)) /\ (forall x, is_has ids x = is_has ids' x) /\ mwf ids /\ mwf ids')
      by (intros n' m op op' k ids Q E; apply (ids_perm (o k) (o' k) (o n') (o' m) op op' ids); trivial; intros ?; first [apply O|apply O']).
    destruct (PM 2%nat 2%nat op0 op0' 0%nat ids0 Q0 HI0) as (ids0' & HI0' & P2 & ND2 & IL2 & HS0 & MI0 & _). destruct (PM 3%nat 3%nat op1 op1' 1%nat ids1 Q1 HI1) as (ids1' & HI1' & P3 & ND3 & IL3 & HS1 & MI1 & _).
    assert (PM0 : forall k, Permutation (o k (keys ids0)) (o' k (keys ids0')) /\ NoDup (o k (keys ids0)) /\ forall x, In x (o k (keys ids0)) <-> In x (parties op0)).
    { intros k. destruct (PM k k op0 op0' 0%nat ids0 Q0 HI0) as (i & E & A & C & D & _). assert (i = ids0') by congruence. subst i. split; [exact A|split; [exact C|exact D]]. }
    assert (PM1 : forall k, Permutation (o k (keys ids1)) (o' k (keys ids1')) /\ NoDup (o k (keys ids1)) /\ forall x, In x (o k (keys ids1)) <-> In x (parties op1)).
    { intros k. destruct (PM k k op1 op1' 1%nat ids1 Q1 HI1) as (i & E & A & C & D & _). assert (i = ids1') by congruence. subst i. split; [exact A|split; [exact C|exact D]]. }
    rewrite HI0'. cbn [rbind]. rewrite HI1'. cbn [rbind]. clear PM.
    apply rbind_ok in H as ([x1 x2] & HX & H).
    destruct (bGenVec_perm br_d1 br_d2 h0 h0' op0 op0' rs _ _ P2 ND2 ltac:(intros z; apply IL2) AG0 (bgvok_get h0 op0 Xv DB0 rs s r a1 a2 u B T false _ DG0 ltac:(intros z; apply IL2) ltac:(intros z I; apply HK; left; apply IL2; exact I)) _ HX) as (xx & HX' & <-). rewrite HX'. cbn [rbind].
    apply rbind_ok in H as ([y1 y2] & HY & H).
    destruct (bGenVec_perm br_b1 br_b2 h1 h1' op1 op1' rs _ _ P3 ND3 ltac:(intros z; apply IL3) AG1 (bgvok_get h1 op1 Yv DB1 rs s r a1 a2 u B T true _ DG1 ltac:(intros z; apply IL3) ltac:(intros z I; apply HK; right; apply IL3; exact I)) _ HY) as (yy & HY' & <-). rewrite HY'. cbn [rbind].
    apply rbind_ok in H as (pr & HPR & H).
    destruct (bprod_dir o o' op0 op0' op1 op1' ids0 ids0' ids1 ids1' out out' pr Q0 Q1 QO ltac:(intros k; split; apply (PM0 k)) ltac:(intros k; split; apply (PM1 k)) HS0 HS1 HPR) as (pr' & HPR' & QP). rewrite HPR'. cbn [rbind].
    assert (ZP : zok pp L pr).
    { destruct (IDSetOf_ok (o 0%nat) op0 ltac:(intros ?; apply O)) as (i0 & E0 & _ & S0). assert (i0 = ids0) by congruence. subst i0. destruct (IDSetOf_ok (o 1%nat) op1 ltac:(intros ?; apply O)) as (i1 & E1 & _ & S1). assert (i1 = ids1) by congruence. subst i1.
      destruct (bProdStage_ok b WB HD o op0 op1 Xv Yv ids0 ids1 out O W0 W1 WO KS MI0 MI1 S0 S1) as (c & _ & _ & C1 & C2 & _). assert (c = pr) by congruence. subst c. apply (wfct_zok pp L false pr C2). }
    rewrite bx_own in H. rewrite bx_own. apply rbind_ok in H as (g & HG & H). destruct (PM1 7%nat) as (P7 & ND7 & IL7).
    rewrite (rfold_extI (own (qG7 h1' op1' x1 x2)) (own (qG7 h1 op1 x1 x2))).
    2:{ intros w id I. unfold own, qG7, bExtOp. rewrite <- (AG1 id ltac:(apply IL7, (Permutation_in _ (Permutation_sym P7) I))). reflexivity. }
    destruct (own_dir _ _ _ pr pr' P7 ND7 QP g HG) as (g' & HG' & QG). rewrite HG'. cbn [rbind].
    assert (ZG : zok pp L g).
    { unfold Determ.zok. refine (own_keep (qG7 h1 op1 x1 x2) _ (rowsok pp L) id0 _ pr g HG ZP). intros q p I. apply IL7, in_parties in I. tauto. }
    destruct (PM0 8%nat) as (P8 & ND8 & IL8).
    assert (N0 : ~ In id0 (o 8%nat (keys ids0))) by (intros I; apply IL8, in_parties in I; tauto).
    assert (N0' : ~ In id0 (o' 8%nat (keys ids0'))) by (intros I; apply N0; apply (Permutation_in _ (Permutation_sym P8) I)).
    rewrite bv_acc in H by exact N0. rewrite bv_acc by exact N0'. apply rbind_ok in H as (uu & HU & H). rewrite HU. cbn [rbind].
    rewrite (rfold_extI (acc pp L (bvG rs h0' op0' y1 y2 uu)) (acc pp L (bvG rs h0 op0 y1 y2 uu))).
    2:{ intros w id I. unfold acc. destruct (cget w id) as [q|]; cbn [rbind]; [|reflexivity]. unfold bvG, bExtOp. rewrite <- (AG0 id ltac:(apply IL8, (Permutation_in _ (Permutation_sym P8) I))). reflexivity. }
    assert (GC0 : forall id q e p, bvG rs h0 op0 y1 y2 uu id q = Ok (e, p) -> canons pp L e).
    { intros id q e p G. unfold bvG in G. apply rbind_ok in G as (k & _ & G). apply rbind_ok in G as (w & _ & G). apply rbind_ok in G as (dw & _ & G). apply rbind_ok in G as (ev & E & G). apply rbind_ok in G as (eu & _ & G).
      assert (ev = e) by congruence. subst ev. apply (ExtH_canon pp WF L dw (br_v k) e HL E). }
    exact (acc_dir pp WF L _ _ _ g g' HL N0 ltac:(intros id q e p _; apply GC0) P8 ND8 ZG QG v H).
  Qed.

  (** the operands over R *)
  Lemma liftCt_get (conv : list R -> res (list R)) (c : ct) l : forall (acc cR : ct), rfold (fun acc id => p <- cget c id ;; r <- conv (prows p) ;; Ok (cset acc id (Pol r false))) l acc = Ok cR ->
    forall x, mget seq_dec cR x = if in_dec seq_dec x l then match (p <- cget c x ;; conv (prows p)) with Ok r => Some (Pol r false) | Panic => None end else mget seq_dec acc x.
  Proof.
    induction l as [|y l IH]; intros acc cR H x; cbn [rfold] in H; [assert (acc = cR) by congruence; subst; reflexivity|].
    destruct (cget c y) as [p|] eqn:EP; cbn [rbind] in H; [|discriminate]. destruct (conv (prows p)) as [r|] eqn:ER; cbn [rbind] in H; [|discriminate]. rewrite (IH _ _ H x).
    destruct (in_dec seq_dec x l) as [I|I]; destruct (in_dec seq_dec x (y :: l)) as [J|J]; try reflexivity.
    - exfalso. apply J. right. exact I.
    - destruct J as [->|J]; [|contradiction]. rewrite EP. cbn [rbind]. rewrite ER. unfold cset. rewrite mget_mset_eq. reflexivity.
    - unfold cset. rewrite mget_mset_neq; [reflexivity|]. intros ->. apply J. left. reflexivity.
  Qed.
  Lemma liftCt_eqc (conv : list R -> res (list R)) (c c' cR cR' : ct) l l' : eqc c c' -> (forall x, In x l <-> In x l') -> liftCt conv l c = Ok cR -> liftCt conv l' c' = Ok cR' -> eqc cR cR'.
  Proof.
    intros Q S H H' x. rewrite (liftCt_get conv c l nil cR H x), (liftCt_get conv c' l' nil cR' H' x). rewrite (eqc_cget c c' x Q).
    destruct (in_dec seq_dec x l) as [I|I], (in_dec seq_dec x l') as [J|J]; try reflexivity; exfalso; [apply J, S, I|apply I, S, J].
  Qed.
  Lemma bhdig_eqc (c c' : ct) id : eqc c c' -> bhdig b L None c id = bhdig b L None c' id.
  Proof. intros Q. unfold bhdig. rewrite (eqc_cgetL c c' id _ Q). reflexivity. Qed.
  Lemma bNew_eqc (o o' : order) (c0 c0' c1 c1' out out' : ct) : order_ok o -> order_ok o' -> eqc c0 c0' -> eqc c1 c1' -> In id0 (keys c0) -> bNewBinary pp o c0 c1 = Ok out -> bNewBinary pp o' c0' c1' = Ok out' -> eqc out out'.
  Proof.
    intros O O' Q0 Q1 I H H'. destruct (bNewBinary_ok pp WF o c0 c1 O I) as (v & A & _ & K). assert (v = out) by congruence. subst v.
    destruct (bNewBinary_ok pp WF o' c0' c1' O' ltac:(apply (eqc_keys c0 c0' id0 Q0); exact I)) as (v & A' & _ & K'). assert (v = out') by congruence. subst v.
    assert (KK : forall x, In x (keys out) <-> In x (keys out')) by (intros x; rewrite K, K', (eqc_keys c0 c0' x Q0), (eqc_keys c1 c1' x Q1); reflexivity).
    assert (G : forall (o : order) c0 c1 (out : ct), bNewBinary pp o c0 c1 = Ok out -> forall x, In x (keys out) -> mget seq_dec out x = Some (Pol (tab (S L) (fun _ => R0)) false)).
    { clear. intros o c0 c1 out H x I. unfold bNewBinary, bNewCiphertext in H. apply rbind_ok in H as (i0 & _ & H). apply rbind_ok in H as (i1 & _ & H). apply rbind_ok in H as (i & _ & H).
      assert (E : NewCiphertext (o 24%nat) i L = out) by congruence. subst out. apply (mget_In_keys seq_dec) in I. revert I. unfold NewCiphertext. rewrite (fold_cset _ _ _ x).
      destruct (in_dec seq_dec x (o 24%nat (keys i))); [intros _; reflexivity|]. unfold cset. rewrite mget_mset. destruct (seq_dec x id0); [intros _; reflexivity|]. intros I. exfalso. apply I. reflexivity. }
    intros x. destruct (in_dec seq_dec x (keys out)) as [J|J].
    - rewrite (G _ _ _ _ H x J), (G _ _ _ _ H' x (proj1 (KK x) J)). reflexivity.
    - destruct (mget seq_dec out x) eqn:E1; [exfalso; apply J, (mget_In_keys seq_dec); rewrite E1; discriminate|]. destruct (mget seq_dec out' x) eqn:E2; [|reflexivity]. exfalso. apply J, KK, (mget_In_keys seq_dec). rewrite E2. discriminate.
  Qed.
  Theorem bMulRelinNew_dir (o o' : order) crs (c0 c0' c1 c1' : ct) (rs : brlkset N) (s r : string -> R) B T v : order_ok o -> order_ok o' -> wfct pp L false c0 -> wfct pp L false c1 -> wfct pp L false c0' -> wfct pp L false c1' -> eqc c0 c0' -> eqc c1 c1' ->
    relin_keys b s r crs rs B T c0 c1 -> bMulRelinNew b o crs c0 c1 rs = Ok v -> exists v', bMulRelinNew b o' crs c0' c1' rs = Ok v' /\ eqc v v'.
  Proof.
    intros O O' W0 W1 W0' W1' Q0 Q1 (a1 & a2 & u & _ & _ & GU & CU & HK) H. unfold bMulRelinNew in *.
    destruct (bNewBinary_ok pp WF o c0 c1 O (proj1 (proj2 W0))) as (out & EO & WO & KO). destruct (bNewBinary_ok pp WF o' c0' c1' O' (proj1 (proj2 W0'))) as (out' & EO' & WO' & KO').
    pose proof (bNew_eqc o o' c0 c0' c1 c1' out out' O O' Q0 Q1 (proj1 (proj2 W0)) EO EO') as QO. rewrite EO in H. rewrite EO'. cbn [rbind] in *. unfold bMulRelinHoisted in *.
    destruct (lift_ops b WB HD o c0 c1 O W0 W1) as (c0R & c1R & Xv & Yv & X1 & Rv & A1 & A2 & A3 & A4 & A5 & A6 & _). destruct (lift_ops b WB HD o' c0' c1' O' W0' W1') as (c0R' & c1R' & Xv' & Yv' & X1' & Rv' & A1' & A2' & A3' & A4' & A5' & A6' & _).
    assert (PE : forall k (c c' : ct), eqc c c' -> forall x, In x (o k (keys c)) <-> In x (o' k (keys c'))).
    { intros k c c' Q x. transitivity (In x (keys c)); [split; apply Permutation_in; [|symmetry]; apply O|]. rewrite (eqc_keys c c' x Q). split; apply Permutation_in; [symmetry|]; apply O'. }
    pose proof (liftCt_eqc _ c0 c0' c0R c0R' _ _ Q0 (PE 40%nat c0 c0' Q0) A1 A1') as QR0. pose proof (liftCt_eqc _ c1 c1' c1R c1R' _ _ Q1 (PE 41%nat c1 c1' Q1) A2 A2') as QR1.
    rewrite A1 in H. rewrite A1'. cbn [rbind] in *. rewrite A2 in H. rewrite A2'. cbn [rbind] in *.
    destruct (ids_of (o 42%nat) c0) as (ids0 & B0 & _ & _ & _ & K0); [intros l; apply O|]. destruct (ids_of (o 43%nat) c1) as (ids1 & B1 & _ & _ & _ & K1); [intros l; apply O|].
    destruct (ids_of (o' 42%nat) c0') as (ids0' & B0' & _ & _ & _ & K0'); [intros l; apply O'|]. destruct (ids_of (o' 43%nat) c1') as (ids1' & B1' & _ & _ & _ & K1'); [intros l; apply O'|].
    rewrite B0 in H. rewrite B0'. cbn [rbind] in *. rewrite B1 in H. rewrite B1'. cbn [rbind] in *. rewrite (wfct_level pp _ _ _ W0) in H. rewrite (wfct_level pp _ _ _ W0'). cbn [rbind] in *.
    destruct (digits_some b WB HD c0R Xv (o 44%nat (keys ids0)) A3) as (h0 & H01 & H02 & H03); [intros x; rewrite in_parties, A5, <- K0; split; apply Permutation_in; [|symmetry]; apply O|].
    destruct (digits_some b WB HD c1R Yv (o 45%nat (keys ids1)) A4) as (h1 & H11 & H12 & H13); [intros x; rewrite in_parties, A6, <- K1; split; apply Permutation_in; [|symmetry]; apply O|].
    destruct (digits_some b WB HD c0R' Xv' (o' 44%nat (keys ids0')) A3') as (h0' & H01' & H02' & _); [intros x; rewrite in_parties, A5', <- K0'; split; apply Permutation_in; [|symmetry]; apply O'|].
    destruct (digits_some b WB HD c1R' Yv' (o' 45%nat (keys ids1')) A4') as (h1' & H11' & H12' & _); [intros x; rewrite in_parties, A6', <- K1'; split; apply Permutation_in; [|symmetry]; apply O'|].
    rewrite H01 in H. rewrite H01'. cbn [rbind] in *. rewrite (wfct_level pp _ _ _ W1) in H. rewrite (wfct_level pp _ _ _ W1'). cbn [rbind] in *. rewrite H11 in H. rewrite H11'. cbn [rbind] in *.
    apply (bmul_dir o o' crs c0R c0R' c1R c1R' (Some h0) (Some h0') (Some h1) (Some h1') rs out out' s r a1 a2 u B T Xv Yv (rdig_bound b) (rdig_bound b) v O O' QR0 QR1 QO A3 A4 WO); [| | |exact H03|exact H13| |exact H].
    - intros x. rewrite KO, A5, A6. pose proof (proj1 (proj2 W0)) as I0. destruct (string_dec x id0) as [->|]; tauto.
    - intros id I. rewrite (H02 id I), (bhdig_eqc c0R c0R' id QR0). symmetry. apply H02'. apply (eqc_parties _ _ id QR0). exact I.
    - intros id I. rewrite (H12 id I), (bhdig_eqc c1R c1R' id QR1). symmetry. apply H12'. apply (eqc_parties _ _ id QR1). exact I.
    - intros id I. apply HK. rewrite !in_parties in *. rewrite A5, A6 in I. exact I.
  Qed.
End Bfv.
