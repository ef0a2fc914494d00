(** The mkbfv Evaluator on references (HeapBfv.v) computes what it computes on values. *)
From Verif Require Import Base IdSetModel KeySetModel NumTheory Negacyclic Ntt Word BasisExt Rows RlweModel KeyGenModel Galois CtModel CtSpec CtProofs KeySwitchModel FloatModel CkksFloat CkksModel BfvModel BfvMulModel HeapModel HeapProofs HeapEval HeapEvalProofs HeapWorld HeapBfv.
Open Scope Z_scope.

Section Calls.
  Context {N : nat}.
  Notation R := (R N).
  Notation heap := (heap N).
  Notation ct := (ctT N).
  Implicit Types (pp : rparams) (h : heap) (c d : hct).
  Definition simC h (hr : res (heap * hct)) (vr : res ct) : Prop :=
    match vr with Panic => hr = Panic | Ok v => exists h' c, hr = Ok (h', c) /\ hok h' c /\ view h' c = v /\ above (length h) c /\ only nowhere h h' end.

  Lemma simC_run o h ids level (hr : heap -> hct -> res heap) (vr : ct -> res ct) :
    (forall h1 v, hok h1 v -> above (length h) v -> only nowhere h h1 -> sim h1 v (hr h1 v) (vr (view h1 v))) ->
    simC h (let '(h, v) := hNew o h ids level in h <- hr h v ;; Ok (h, v)) (vr (NewCiphertext o ids level)).
  Proof.
    intros F. pose proof (hNew_ok o h ids level) as A. destruct (hNew o h ids level) as [h1 v]. destruct A as (A1 & A2 & A3 & A4). rewrite <- A1. specialize (F h1 v A2 A3 A4).
    destruct (vr (view h1 v)) as [w|]; cbn [sim simC] in *; [|rewrite F; reflexivity]. destruct F as (h2 & -> & K & E & O). cbn [rbind]. exists h2, v. split; [reflexivity|]. split; [exact K|]. split; [exact E|]. split; [exact A3|].
    apply (only_trans _ _ _ _ _ _ A4 O). intros r Hr [H|H]; [exact H|]. apply A3 in H. exfalso. lia.
  Qed.
  (** allocation for two operands, then a body that writes only the result *)
  Lemma simC_bin pp o h c0 c1 (hr : heap -> hct -> res heap) (vr : ct -> res ct) : hok h c0 -> hok h c1 ->
    (forall h1 v, hok h1 v -> hok h1 c0 -> hok h1 c1 -> view h1 c0 = view h c0 -> view h1 c1 = view h c1 -> disj c0 v -> disj c1 v -> sim h1 v (hr h1 v) (vr (view h1 v))) ->
    simC h ('(h, out) <- hbNewBinary pp o h c0 c1 ;; h <- hr h out ;; Ok (h, out)) (out <- bNewBinary pp o (view h c0) (view h c1) ;; vr out).
  Proof.
    intros K0 K1 F. unfold hbNewBinary, bNewBinary. rewrite (rd_ids _ _ _ _ (reads_hok _ _ K0)), (rd_ids _ _ _ _ (reads_hok _ _ K1)).
    destruct (IDSetOf _ (view h c0)) as [i0|]; cbn [rbind]; [|reflexivity]. destruct (IDSetOf _ (view h c1)) as [i1|]; cbn [rbind]; [|reflexivity]. destruct (is_union o 22%nat i0 i1) as [ids|]; cbn [rbind]; [|reflexivity].
    apply simC_run. intros h1 v KV A O. destruct (later _ _ _ _ K0 A O) as (K01 & V0 & D0). destruct (later _ _ _ _ K1 A O) as (K11 & V1 & D1). apply F; assumption.
  Qed.

  Lemma hbFull2_sim pp ev h0 c0 c1 out h v id : hok h0 c0 -> hok h0 c1 -> disj c0 out -> disj c1 out -> U h0 out h v ->
    sim h0 out (hbFull2 pp ev h c0 c1 out id) (bFull2 pp ev (view h0 c0) (view h0 c1) v id).
  Proof.
    intros K0 K1 D0 D1 UU. unfold hbFull2, bFull2. rewrite (rd_getL _ _ _ _ _ (reads_other _ _ _ _ _ UU K0 D0)), (rd_getL _ _ _ _ _ (reads_other _ _ _ _ _ UU K1 D1)), (rd_getL _ _ _ _ _ (reads_U _ _ _ _ UU)).
    apply sim_same. intros a _. apply sim_same. intros b _. apply sim_same. intros p E. unfold cgetL in E. destruct (cget v id) as [q|] eqn:EQ; cbn [rbind] in E; [|discriminate]. apply (sim_write _ _ _ _ _ _ q UU EQ).
  Qed.
  Lemma hbEval_sim pp o h c0 c1 out ev : hok h c0 -> hok h c1 -> hok h out -> disj c0 out -> disj c1 out ->
    sim h out (hbEvaluateInPlace pp o h c0 c1 out ev) (bEvaluateInPlace pp o (view h c0) (view h c1) (view h out) ev).
  Proof.
    intros K0 K1 KO D0 D1. unfold hbEvaluateInPlace, bEvaluateInPlace. rewrite (rd_ids _ _ _ _ (reads_hok _ _ K0)), (rd_ids _ _ _ _ (reads_hok _ _ K1)). apply sim_same. intros i0 _. apply sim_same. intros i1 _.
    apply sim_bind; [apply hbFull2_sim; try assumption; apply U_init; exact KO|]. intros h1 v1 U1. rewrite (hIDSet_U _ _ _ _ _ U1). apply sim_same. intros io _. apply sim_fold; [exact U1|]. intros id h2 v2 _ U2.
    rewrite (U_read _ _ _ _ id U2), (proj2 (reads_other _ _ _ _ _ U2 K0 D0)), (proj2 (reads_other _ _ _ _ _ U2 K1 D1)).
    destruct (negb (is_has i0 id)); [|destruct (negb (is_has i1 id)); [|apply hbFull2_sim; assumption]].
    - apply sim_same. intros p E. apply sim_same. intros q _. apply (sim_write _ _ _ _ _ _ p U2 E).
    - apply sim_same. intros p E. apply sim_same. intros q _. apply (sim_write _ _ _ _ _ _ p U2 E).
  Qed.
  Lemma hbAdd_sim pp o h c0 c1 : hok h c0 -> hok h c1 -> simC h (hbAddNew pp o h c0 c1) (bAddNew pp o (view h c0) (view h c1)).
  Proof.
    intros K0 K1. unfold hbAddNew, bAddNew. apply (simC_bin pp o h c0 c1 (fun h out => hbEvaluateInPlace pp o h c0 c1 out r_add) (fun out => bEvaluateInPlace pp o (view h c0) (view h c1) out r_add) K0 K1).
    intros h1 v KV K01 K11 <- <- D0 D1. apply hbEval_sim; assumption.
  Qed.
  Lemma rbind_assoc {A B C} (r : res A) (f : A -> res B) (g : B -> res C) : rbind (rbind r f) g = rbind r (fun x => rbind (f x) g).
  Proof. destruct r; reflexivity. Qed.
  Lemma rbind_ext2 {A B} (r : res A) (f g : A -> res B) : (forall x, f x = g x) -> rbind r f = rbind r g.
  Proof. intros E. destruct r; cbn [rbind]; [apply E|reflexivity]. Qed.
  Lemma hbSub_sim pp o h c0 c1 : hok h c0 -> hok h c1 -> simC h (hbSubNew pp o h c0 c1) (bSubNew pp o (view h c0) (view h c1)).
  Proof.
    intros K0 K1. unfold hbSubNew, bSubNew.
    set (hr := fun h (out : hct) => h <- hbEvaluateInPlace pp o h c0 c1 out r_sub ;; ids0 <- hIDSet (o 30%nat) c0 ;; idso <- hIDSet (o 31%nat) out ;;
      rfold (fun h id => if negb (is_has ids0 id) then p <- hgetL h out id (maxLevel pp) ;; hwrite h out id (Pol (lvlQ1 pp (maxLevel pp) r_neg (prows p)) (pntt p)) else Ok h) (o 32%nat (keys idso)) h).
    set (vr := fun out : ct => out <- bEvaluateInPlace pp o (view h c0) (view h c1) out r_sub ;; ids0 <- IDSetOf (o 30%nat) (view h c0) ;; idso <- IDSetOf (o 31%nat) out ;;
      rfold (fun v id => if negb (is_has ids0 id) then p <- cgetL v id (maxLevel pp) ;; Ok (cset v id (Pol (lvlQ1 pp (maxLevel pp) r_neg (prows p)) (pntt p))) else Ok v) (o 32%nat (keys idso)) out).
    assert (S : simC h ('(h, out) <- hbNewBinary pp o h c0 c1 ;; h <- hr h out ;; Ok (h, out)) (out <- bNewBinary pp o (view h c0) (view h c1) ;; vr out)).
    { apply simC_bin; [exact K0|exact K1|]. intros h1 v KV K01 K11 E0 E1 D0 D1. unfold hr, vr. rewrite <- E0, <- E1. apply sim_bind; [apply hbEval_sim; assumption|]. intros h2 v2 U2.
      rewrite (rd_ids _ _ _ _ (reads_hok _ _ K01)), (hIDSet_U _ _ _ _ _ U2). apply sim_same. intros i0 _. apply sim_same. intros io _. apply sim_fold; [exact U2|]. intros id h3 v3 _ U3. destruct (negb (is_has i0 id)); [|apply sim_ok; exact U3].
      rewrite (rd_getL _ _ _ _ _ (reads_U _ _ _ _ U3)). apply sim_same. intros p E. unfold cgetL in E. destruct (cget v3 id) as [q|] eqn:EQ; cbn [rbind] in E; [|discriminate]. apply (sim_write _ _ _ _ _ _ q U3 EQ). }
    match goal with |- simC h ?a _ => replace a with ('(h, out) <- hbNewBinary pp o h c0 c1 ;; h <- hr h out ;; Ok (h, out)); [exact S|] end.
    apply rbind_ext2. intros [h1 out]. unfold hr. rewrite rbind_assoc. apply rbind_ext2. intros h2. rewrite rbind_assoc. apply rbind_ext2. intros i0. rewrite rbind_assoc. reflexivity.
  Qed.

  (** *** multiplication *)
  Lemma hbProd_sim b o h0 op0 op1 i0 i1 out h v : U h0 out h v -> sim h0 out (hbProdStage b o h op0 op1 i0 i1 out) (bProdStage b o op0 op1 i0 i1 v).
  Proof.
    intros UU. unfold hbProdStage, bProdStage. apply sim_same. intros a0 _. apply sim_same. intros b0 _. apply sim_same. intros z _.
    apply sim_bind; [apply sim_wr; exact UU|]. intros h1 v1 U1.
    apply sim_bind; [apply sim_fold; [exact U1|]|].
    { intros id h2 v2 _ U2. destruct (is_has i1 id); [apply sim_ok; exact U2|]. apply sim_same. intros p _. apply sim_same. intros z2 _. apply sim_wr. exact U2. }
    intros h2 v2 U2. apply sim_bind; [apply sim_fold; [exact U2|]|].
    { intros id h3 v3 _ U3. destruct (is_has i0 id); [apply sim_ok; exact U3|]. apply sim_same. intros p _. apply sim_same. intros z2 _. apply sim_wr. exact U3. }
    intros h3 v3 U3. apply sim_fold; [exact U3|]. intros id h4 v4 _ U4. destruct (is_has i0 id); [|apply sim_ok; exact U4]. apply sim_same. intros p _. apply sim_same. intros q _. apply sim_same. intros z2 _. apply sim_wr. exact U4.
  Qed.
  Lemma hbx_sim b level o h0 (h1 : option (bhoisted N)) op1 i1 x1 x2 out h v : U h0 out h v -> sim h0 out (hbxStage b level o h h1 op1 i1 x1 x2 out) (bxStage b level o h1 op1 i1 x1 x2 v).
  Proof.
    intros UU. unfold hbxStage, bxStage. apply sim_fold; [exact UU|]. intros id h2 v2 _ U2. apply sim_same. intros e _. rewrite (U_read _ _ _ _ id U2). apply sim_same. intros q _. apply sim_wr. exact U2.
  Qed.
  Lemma hbv_sim b level o crs rs h0 (d0 : option (bhoisted N)) op0 i0 y1 y2 out h v : U h0 out h v -> sim h0 out (hbvStage b level o crs rs h d0 op0 i0 y1 y2 out) (bvStageH b level o crs rs d0 op0 i0 y1 y2 v).
  Proof.
    intros UU. unfold hbvStage, bvStageH. apply sim_same. intros u _. apply sim_fold; [exact UU|]. intros id h2 v2 _ U2. apply sim_same. intros k _. apply sim_same. intros w _. apply sim_same. intros dw _. apply sim_same. intros ev _.
    rewrite (U_read _ _ _ _ id0 U2). apply sim_same. intros q0 _. apply sim_bind; [apply sim_wr; exact U2|]. intros h3 v3 U3. apply sim_same. intros eu _. rewrite (U_read _ _ _ _ id U3). apply sim_same. intros q _. apply sim_wr. exact U3.
  Qed.
  Lemma hbMulR_sim b o crs h op0 op1 (d0 d1 : option (bhoisted N)) rs out : hok h out -> sim h out (hbMulAndRelin b o crs h op0 op1 d0 d1 rs out) (MulAndRelinBFVHoisted b o crs op0 op1 d0 d1 rs (view h out)).
  Proof.
    intros K. unfold hbMulAndRelin, MulAndRelinBFVHoisted. rewrite (rd_level _ _ _ (reads_hok _ _ K)). apply sim_same. intros level _. apply sim_same. intros l0 _. destruct (l0 <? level)%nat; [reflexivity|].
    apply sim_same. intros i0 _. apply sim_same. intros i1 _. apply sim_same. intros [x1 x2] _. apply sim_same. intros [y1 y2] _. apply sim_bind; [apply hbProd_sim; apply U_init; exact K|]. intros h1 v1 U1.
    apply sim_bind; [apply hbx_sim; exact U1|]. intros h2 v2 U2. apply hbv_sim. exact U2.
  Qed.
  Lemma hbLift_eq (conv : list R -> res (list R)) l h c : hok h c -> hbLift conv l h c = liftCt conv l (view h c).
  Proof. intros K. unfold hbLift, liftCt. apply rfold_ext. intros acc id. rewrite (proj2 (reads_hok _ _ K)). reflexivity. Qed.
  Lemma hbMul_sim b o crs h c0 c1 rs : hok h c0 -> hok h c1 -> simC h (hbMulRelinNew b o crs h c0 c1 rs) (bMulRelinNew b o crs (view h c0) (view h c1) rs).
  Proof.
    intros K0 K1. unfold hbMulRelinNew, bMulRelinNew. apply (simC_bin (ppQ b) o h c0 c1 (fun h out => hbMulRelinHoisted b o crs h c0 c1 rs out) (fun out => bMulRelinHoisted b o crs (view h c0) (view h c1) rs out) K0 K1).
    intros h1 v KV K01 K11 E0 E1 D0 D1. unfold hbMulRelinHoisted, bMulRelinHoisted. rewrite <- E0, <- E1, !keys_view, (hbLift_eq _ _ _ _ K01), (hbLift_eq _ _ _ _ K11), (rd_ids _ _ _ _ (reads_hok _ _ K01)), (rd_ids _ _ _ _ (reads_hok _ _ K11)), (rd_level _ _ _ (reads_hok _ _ K01)), (rd_level _ _ _ (reads_hok _ _ K11)).
    do 8 (apply sim_same; intros ? _). apply hbMulR_sim. exact KV.
  Qed.

  (** *** rotation and conjugation *)
  (** a body that writes the result and a temporary copy that is dropped *)
  Definition simT h out (hr : res heap) (vr : res ct) : Prop := match vr with Panic => hr = Panic | Ok v => exists h', hr = Ok h' /\ hok h' out /\ view h' out = v /\ only (inr out) h h' end.
  Lemma tmp_sim o h c out (hf : heap -> hct -> res heap) (vf : ct -> res ct) : hok h c -> hok h out -> ord1_ok o ->
    (forall h1 tmp, hok h1 tmp -> hok h1 out -> disj tmp out -> view h1 out = view h out ->
       match vf (view h1 tmp) with Panic => hf h1 tmp = Panic | Ok v => exists h', hf h1 tmp = Ok h' /\ hok h' out /\ view h' out = v /\ only (fun r => inr tmp r \/ inr out r) h1 h' end) ->
    simT h out ('(h, tmp) <- hCopyNew o h c ;; hf h tmp) (tmp <- CopyNew o (view h c) ;; vf tmp).
  Proof.
    intros KC KO OO F. pose proof (hCopyNew_sim o h c KC OO) as S. destruct (CopyNew o (view h c)) as [v|]; cbn [rbind]; [|rewrite S; reflexivity]. destruct S as (h1 & tmp & -> & <- & K1 & A1 & O1). cbn [rbind].
    assert (KO1 : hok h1 out) by (apply (only_hok _ _ _ _ O1 KO)). assert (VO1 : view h1 out = view h out) by (apply (only_view _ _ _ _ O1 KO); unfold nowhere; tauto).
    assert (D1 : disj tmp out) by (apply (above_disj _ _ _ _ A1 KO); lia). specialize (F h1 tmp K1 KO1 D1 VO1). destruct (vf (view h1 tmp)) as [w|]; [|exact F]. destruct F as (h2 & E & K2 & V2 & O2). exists h2. split; [exact E|]. split; [exact K2|]. split; [exact V2|].
    apply (only_trans _ _ _ _ _ _ O1 O2). intros r Hr [H|[H|H]]; [destruct H|apply A1 in H; exfalso; lia|exact H].
  Qed.
  Lemma sim_tmp h tmp out hr vr : sim h out hr vr -> match vr with Panic => hr = Panic | Ok v => exists h', hr = Ok h' /\ hok h' out /\ view h' out = v /\ only (fun r => inr tmp r \/ inr out r) h h' end.
  Proof. intros S. destruct vr as [v|]; [|exact S]. destruct S as (h' & E & K & V & O). exists h'. split; [exact E|]. split; [exact K|]. split; [exact V|]. apply (only_weaken _ _ _ _ O). tauto. Qed.
  Lemma hbRotate_sim pp (o : nat -> order) crs h c rot rk out : hok h c -> hok h out -> disj c out -> (forall n, order_ok (o n)) ->
    sim h out (hbRotate pp o crs h c rot rk out) (bRotate pp o crs (view h c) rot rk (view h out)).
  Proof.
    intros KC KO D OO. unfold hbRotate, bRotate. destruct (rotNorm rot) as [k|]; cbn [rbind]; [|reflexivity]. destruct (k =? 0); [apply hCopy_sim; assumption|].
    apply (tmp_sim (o 0%nat 0%nat) h c out (fun h tmp => match mget Z.eq_dec crs k with Some _ => hRotateGen pp (o 0%nat) crs None h tmp k rk out | None => hrotChain pp o crs (Z.to_nat k) 1 k rk h tmp out end)
      (fun tmp => match mget Z.eq_dec crs k with Some _ => Rotate pp (o 0%nat) crs tmp k rk (view h out) | None => rotChain pp o crs (Z.to_nat k) 1 k rk tmp (view h out) end) KC KO (OO 0%nat 0%nat)).
    intros h1 tmp KT KO1 DT <-. destruct (mget Z.eq_dec crs k); [|apply hrotChain_ok; assumption]. apply sim_tmp. apply hRotate_sim; assumption.
  Qed.
  Lemma hbRotateNew_sim pp (o : nat -> order) crs h c rot rk : hok h c -> (forall n, order_ok (o n)) -> simC h (hbRotateNew pp o crs h c rot rk) (bRotateNew pp o crs (view h c) rot rk).
  Proof.
    intros K OO. unfold hbRotateNew, bRotateNew, hbNew, bNewCiphertext. rewrite (rd_ids _ _ _ _ (reads_hok _ _ K)). destruct (IDSetOf _ (view h c)) as [ids|]; cbn [rbind]; [|reflexivity].
    apply (simC_run _ h ids (maxLevel pp) (fun h out => hbRotate pp o crs h c rot rk out) (fun out => bRotate pp o crs (view h c) rot rk out)). intros h1 v KV A O. destruct (later _ _ _ _ K A O) as (K1 & <- & D). apply hbRotate_sim; assumption.
  Qed.
  Lemma hbConj_sim pp (o : order) crs h c ck : hok h c -> order_ok o -> simC h (hbConjugateNew pp o crs h c ck) (bConjugateNew pp o crs (view h c) ck).
  Proof.
    intros K OO. unfold hbConjugateNew, bConjugateNew, hbNew, bNewCiphertext. rewrite (rd_ids _ _ _ _ (reads_hok _ _ K)). destruct (IDSetOf _ (view h c)) as [ids|]; cbn [rbind]; [|reflexivity].
    pose proof (simC_run (o 61%nat) h ids (maxLevel pp) (fun h out => '(h, tmp) <- hCopyNew (o 62%nat) h c ;; hConjugate pp o crs h tmp ck out) (fun out => tmp <- CopyNew (o 62%nat) (view h c) ;; Conjugate pp o crs tmp ck out)) as S.
    match type of S with ?P -> simC h ?a _ => assert (H : P) end.
    { intros h1 v KV A O. destruct (later _ _ _ _ K A O) as (K1 & <- & D). apply (tmp_sim (o 62%nat) h1 c v (fun h tmp => hConjugate pp o crs h tmp ck v) (fun tmp => Conjugate pp o crs tmp ck (view h1 v)) K1 KV (OO 62%nat)).
      intros h2 tmp KT KO DT <-. apply sim_tmp. apply hConj_sim; assumption. }
    specialize (S H). match goal with |- simC h ?a _ => match type of S with simC h ?b _ => replace a with b; [exact S|] end end.
    destruct (hNew (o 61%nat) h ids (maxLevel pp)) as [h1 v]. rewrite rbind_assoc. apply rbind_ext2. intros [h2 tmp]. reflexivity.
  Qed.

  (** *** worlds *)
  Definition bsep h (L : list hct) : Prop := (forall c, In c L -> hok h c) /\ forall i j ci cj, nth_error L i = Some ci -> nth_error L j = Some cj -> i <> j -> disj ci cj.
  Definition bsame (w : hbworld N) (u : list ct) : Prop := bsep (bwh w) (bwcts w) /\ bcontents w = u.
  Lemma bworld_new (w : hbworld N) u h' c v : bsame w u -> hok h' c -> above (length (bwh w)) c -> only nowhere (bwh w) h' -> view h' c = v -> bsame (HBW h' (bwcts w ++ [c])) (u ++ [v]).
  Proof.
    intros ((K & D) & <-) KC A O E. assert (OLD : forall d, In d (bwcts w) -> hok h' d /\ view h' d = view (bwh w) d /\ disj d c).
    { intros d I. destruct (later _ _ _ _ (K d I) A O) as (X & Y & Z). repeat (split; [assumption|]). assumption. }
    split; [split|]; cbn [bwh bwcts].
    - intros d I. apply in_app_iff in I. destruct I as [I|[<-|[]]]; [apply OLD; exact I|exact KC].
    - assert (G : forall i d, nth_error (bwcts w ++ [c]) i = Some d -> (nth_error (bwcts w) i = Some d /\ In d (bwcts w)) \/ (i = length (bwcts w) /\ d = c)).
      { intros i d F. destruct (Nat.lt_ge_cases i (length (bwcts w))) as [L|L]; [rewrite nth_error_app1 in F by exact L; left; split; [exact F|apply (nth_error_In _ _ F)]|]. rewrite nth_error_app2 in F by exact L. right.
        destruct (i - length (bwcts w))%nat as [|k] eqn:EI; [|destruct k; discriminate]. cbn in F. injection F as <-. split; [lia|reflexivity]. }
      intros i j ci cj Ei Ej NE. destruct (G i ci Ei) as [[E1 I1]|[E1 ->]]; destruct (G j cj Ej) as [[E2 I2]|[E2 ->]]; [apply (D i j ci cj E1 E2 NE)|apply OLD; exact I1|apply disj_sym; apply OLD; exact I2|congruence].
    - unfold bcontents. cbn [bwh bwcts]. rewrite map_app. cbn [map]. rewrite E. f_equal. apply map_ext_in. intros d I. apply OLD. exact I.
  Qed.
  Lemma bidx (w : hbworld N) u a : bsame w u -> match idx (bwcts w) a with Ok x => idx u a = Ok (view (bwh w) x) /\ hok (bwh w) x | Panic => idx u a = Panic end.
  Proof.
    intros ((K & _) & <-). unfold idx, bcontents. rewrite nth_error_map. destruct (nth_error (bwcts w) a) as [x|] eqn:E; cbn [option_map]; [split; [reflexivity|apply K; apply (nth_error_In _ _ E)]|reflexivity].
  Qed.
  Theorem bcall_sim b e (o : nat -> order) (w : hbworld N) u i : (forall n, order_ok (o n)) -> bsame w u ->
    match vbcall b e o u i with Panic => hbcall b e o w i = Panic | Ok u' => exists w', hbcall b e o w i = Ok w' /\ bsame w' u' end.
  Proof.
    intros OO S.
    assert (NEW : forall hr vr, simC (bwh w) hr vr ->
      match (v <- vr ;; Ok (u ++ [v])) with Panic => (r <- hr ;; (fun '(h, out) => Ok (HBW h (bwcts w ++ [out]))) r) = Panic
      | Ok u' => exists w', (r <- hr ;; (fun '(h, out) => Ok (HBW h (bwcts w ++ [out]))) r) = Ok w' /\ bsame w' u' end).
    { intros hr [v|] H; cbn [simC rbind] in *; [|rewrite H; reflexivity]. destruct H as (h' & c & -> & K & E & A & O). cbn [rbind]. eexists. split; [reflexivity|]. apply bworld_new; assumption. }
    destruct i as [c|x|x y|x y|x y|x k|x]; cbn [hbcall vbcall];
      try (pose proof (bidx w u x S) as IA; destruct (idx (bwcts w) x) as [a|]; [destruct IA as [-> KX]|rewrite IA; reflexivity]; cbn [rbind]);
      try (pose proof (bidx w u y S) as IB; destruct (idx (bwcts w) y) as [a'|]; [destruct IB as [-> KY]|rewrite IB; reflexivity]; cbn [rbind]).
    - pose proof (hput_ok (bwh w) c) as H. destruct (hput (bwh w) c) as [h' v]. destruct H as (K & E & A & _ & O). eexists. split; [reflexivity|]. apply bworld_new; assumption.
    - apply (NEW _ _). pose proof (hCopyNew_sim (o 0%nat 0%nat) (bwh w) a KX (OO 0%nat 0%nat)) as H. unfold simC. destruct (CopyNew _ _) as [v|]; [|exact H]. destruct H as (h' & d & X & E & K & A & O). exists h', d. split; [exact X|]. split; [exact K|]. split; [exact E|]. split; [exact A|exact O].
    - apply (NEW _ _ (hbAdd_sim (ppQ b) (o 0%nat) (bwh w) a a' KX KY)).
    - apply (NEW _ _ (hbSub_sim (ppQ b) (o 0%nat) (bwh w) a a' KX KY)).
    - apply (NEW _ _ (hbMul_sim b (o 0%nat) (hb_crs e) (bwh w) a a' (hb_rlk e) KX KY)).
    - apply (NEW _ _ (hbRotateNew_sim (ppQ b) o (hb_crs e) (bwh w) a k (hb_rot e) KX OO)).
    - apply (NEW _ _ (hbConj_sim (ppQ b) (o 0%nat) (hb_crs e) (bwh w) a (hb_cj e) KX (OO 0%nat))).
  Qed.
  Theorem brun_sim b e (o : nat -> nat -> order) : (forall n m, order_ok (o n m)) -> forall prog n w u, bsame w u ->
    match vbrun b e o n prog u with Panic => hbrun b e o n prog w = Panic | Ok u' => exists w', hbrun b e o n prog w = Ok w' /\ bsame w' u' end.
  Proof.
    intros OO. induction prog as [|i prog IH]; intros n w u S; cbn [vbrun hbrun]; [exists w; split; [reflexivity|exact S]|].
    pose proof (bcall_sim b e (o n) w u i (OO n) S) as H. destruct (vbcall b e (o n) u i) as [u1|]; cbn [rbind]; [|rewrite H; reflexivity]. destruct H as (w1 & -> & S1). cbn [rbind]. apply IH. exact S1.
  Qed.
  Lemma binit_same : bsame (HBW nil nil) nil.
  Proof. split; [split; [intros c []|intros [|i] j ci cj E; discriminate]|reflexivity]. Qed.
End Calls.
