(** Programs on references and programs on values: the calls of the Evaluator (HeapEval.v) one by one. *)
From Verif Require Import Base IdSetModel KeySetModel NumTheory Negacyclic Ntt Word BasisExt Rows RlweModel KeyGenModel Galois CtModel CtSpec CtProofs KeySwitchModel FloatModel CkksFloat CkksModel HeapModel HeapProofs HeapEval HeapEvalProofs.
Open Scope Z_scope.

Section Calls.
  Context {N : nat}.
  Notation R := (R N).
  Notation heap := (heap N).
  Implicit Types (pp : rparams) (h : heap) (c d : hct).
  Definition V h (c : hck) : ckct N := CK (view h (hv c)) (hsc c).
  Definition simN (S : nat -> Prop) h (hr : res (heap * hck)) (vr : res (ckct N)) : Prop :=
    match vr with Panic => hr = Panic | Ok v => exists h' (c : hck), hr = Ok (h', c) /\ hok h' (hv c) /\ V h' c = v /\ above (length h) (hv c) /\ NoDup (keys (hv c)) /\ only S h h' end.
  Lemma mset_nodup {A} (m : gomap string A) k x : NoDup (keys m) -> NoDup (keys (mset seq_dec m k x)).
  Proof. apply (mwf_mset seq_dec). Qed.
  Lemma hNew_nodup o h ids level : NoDup (keys (snd (hNew o h ids level))).
  Proof.
    unfold hNew. assert (G : forall l h c, NoDup (keys c) -> NoDup (keys (snd (fold_left (fun '(h, c) id => (h ++ [zeroP (N := N) (S level)], mset seq_dec c id (length h))) l (h, c))))).
    { induction l as [|id l IH]; intros h1 c ND; cbn [fold_left]; [exact ND|]. apply IH. apply mset_nodup. exact ND. }
    apply G. cbn. constructor; [intros []|constructor].
  Qed.
  Lemma hCopyNew_nodup o h c h' d : hCopyNew o h c = Ok (h', d) -> NoDup (keys d).
  Proof.
    unfold hCopyNew. destruct (hread h c id0) as [p0|]; cbn [rbind]; [|discriminate].
    assert (G : forall l h1 d1, NoDup (keys d1) -> rfold (fun '(h, d) id => p <- hread h c id ;; Ok (h ++ [p], mset seq_dec d id (length h))) l (h1, d1) = Ok (h', d) -> NoDup (keys d)).
    { induction l as [|id l IH]; intros h1 d1 ND; cbn [rfold]; [intros E; injection E; intros; subst; exact ND|]. destruct (hread h1 c id) as [p|]; cbn [rbind]; [|discriminate]. apply IH. apply mset_nodup. exact ND. }
    apply G. cbn. constructor; [intros []|constructor].
  Qed.
  Lemma disj_sym c d : disj c d -> disj d c. Proof. intros D r A B. apply (D r B A). Qed.

  (** allocate a result and fill it *)
  Lemma simN_alloc o h ids level s (hr : heap -> hct -> res (heap * f64)) (vr : ctT N -> res (ckct N)) :
    (forall h1 v, hok h1 v -> above (length h) v -> only nowhere h h1 -> simS h1 v (hr h1 v) (vr (view h1 v))) ->
    simN nowhere h (let '(h, v) := hNew o h ids level in '(h, s) <- hr h v ;; Ok (h, HC v s)) (vr (cv (ckNew o ids level s))).
  Proof.
    intros F. pose proof (hNew_ok o h ids level) as A. pose proof (hNew_nodup o h ids level) as ND. destruct (hNew o h ids level) as [h1 v]. destruct A as (A1 & A2 & A3 & A4). unfold ckNew. cbn [cv]. rewrite <- A1. specialize (F h1 v A2 A3 A4).
    destruct (vr (view h1 v)) as [w|]; cbn [simS simN] in *; [|rewrite F; reflexivity]. destruct F as (h2 & -> & K & E & O). cbn [rbind]. exists h2, (HC v (csc w)). split; [reflexivity|]. cbn [hv V hsc]. split; [exact K|]. unfold V. cbn [hv hsc]. rewrite E. split; [destruct w; reflexivity|].
    split; [exact A3|]. split; [exact ND|]. apply (only_trans _ _ _ _ _ _ A4 O). intros r Hr [H|H]; [exact H|]. apply A3 in H. exfalso. lia.
  Qed.
  Lemma simS_U h0 c h v hr vr : U h0 c h v -> simS h c hr vr -> simS h0 c hr vr.
  Proof. intros UU S. destruct vr as [w|]; cbn [simS] in *; [|exact S]. destruct S as (h' & -> & U2). exists h'. split; [reflexivity|]. apply (U_trans _ _ _ _ _ _ UU U2). Qed.

  Lemma hRescaleNew_sim pp o h (c : hck) ms : hok h (hv c) ->
    match RescaleNew pp o (V h c) ms with Panic => hRescaleNew pp o h c ms = Panic
    | Ok (v, e) => exists h' (c' : hck), hRescaleNew pp o h c ms = Ok (h', c', e) /\ hok h' (hv c') /\ V h' c' = v /\ above (length h) (hv c') /\ NoDup (keys (hv c')) /\ only nowhere h h' end.
  Proof.
    intros K. unfold RescaleNew, hRescaleNew. cbn [V cv csc]. rewrite (rd_ids _ _ _ _ (reads_hok _ _ K)), (rd_level _ _ _ (reads_hok _ _ K)). unfold V. cbn [cv csc].
    destruct (IDSetOf (o 0%nat) (view h (hv c))) as [ids|]; cbn [rbind]; [|reflexivity]. destruct (ctLevel (view h (hv c))) as [level|]; cbn [rbind]; [|reflexivity].
    pose proof (hNew_ok (o 2%nat) h ids level) as A. pose proof (hNew_nodup (o 2%nat) h ids level) as ND. destruct (hNew (o 2%nat) h ids level) as [h1 v]. destruct A as (A1 & A2 & A3 & A4). unfold ckNew. cbn [cv snd] in *. rewrite <- A1.
    assert (K1 : hok h1 (hv c)) by (apply (only_hok _ _ _ _ A4 K)). assert (V1 : view h1 (hv c) = view h (hv c)) by (apply (only_view _ _ _ _ A4 K); unfold nowhere; tauto).
    assert (D : disj (hv c) v) by (apply disj_sym; apply (above_disj _ _ _ _ A3 K); lia).
    pose proof (hRescale_sim pp (o 1%nat) h1 c ms (HC v (hsc c)) K1 A2 D) as S. cbn [hv hsc] in S. rewrite V1 in S.
    destruct (Rescale pp (o 1%nat) _ ms _) as [[w e]|]; cbn [simR] in S; [|rewrite S; reflexivity]. destruct S as (h2 & -> & K2 & E2 & O2). cbn [rbind]. exists h2, (HC v (csc w)). split; [reflexivity|]. cbn [hv hsc]. split; [exact K2|].
    rewrite E2. split; [destruct w; reflexivity|]. split; [exact A3|]. split; [exact ND|]. apply (only_trans _ _ _ _ _ _ A4 O2). intros r Hr [H|H]; [exact H|]. apply A3 in H. exfalso. lia.
  Qed.

  Lemma hNewBinary_sim o h (c0 c1 : hck) : hok h (hv c0) -> hok h (hv c1) -> simN nowhere h (hNewBinary o h c0 c1) (newCiphertextBinary o (V h c0) (V h c1)).
  Proof.
    intros K0 K1. unfold hNewBinary, newCiphertextBinary, V. cbn [cv csc]. rewrite (rd_level _ _ _ (reads_hok _ _ K0)), (rd_level _ _ _ (reads_hok _ _ K1)), (rd_ids _ _ _ _ (reads_hok _ _ K0)), (rd_ids _ _ _ _ (reads_hok _ _ K1)).
    destruct (ctLevel (view h (hv c0))) as [l0|]; cbn [rbind]; [|reflexivity]. destruct (ctLevel (view h (hv c1))) as [l1|]; cbn [rbind]; [|reflexivity].
    destruct (IDSetOf _ (view h (hv c0))) as [i0|]; cbn [rbind]; [|reflexivity]. destruct (IDSetOf _ (view h (hv c1))) as [i1|]; cbn [rbind]; [|reflexivity]. destruct (is_union o 22%nat i0 i1) as [ids|]; cbn [rbind]; [|reflexivity].
    pose proof (hNew_ok (o 24%nat) h ids (Nat.min l0 l1)) as A. pose proof (hNew_nodup (o 24%nat) h ids (Nat.min l0 l1)) as ND. destruct (hNew _ h ids _) as [h1 v]. destruct A as (A1 & A2 & A3 & A4).
    exists h1, (HC v (f_max (hsc c0) (hsc c1))). cbn [hv hsc]. split; [reflexivity|]. split; [exact A2|]. unfold V. cbn [hv hsc]. rewrite A1. split; [reflexivity|]. split; [exact A3|]. split; [exact ND|exact A4].
  Qed.

  Lemma hDropLevelNew_sim pp (o : order) h (c : hck) n : hok h (hv c) -> order_ok o -> simN nowhere h (hDropLevelNew pp o h c n) (DropLevelNew pp o (V h c) n).
  Proof.
    intros K OO. unfold hDropLevelNew, DropLevelNew, ckCopyNew, V. cbn [cv csc]. pose proof (hCopyNew_sim (o 0%nat) h (hv c) K (OO 0%nat)) as S. destruct (CopyNew (o 0%nat) (view h (hv c))) as [v|]; cbn [rbind]; [|rewrite S; reflexivity].
    destruct S as (h1 & d & X & <- & K1 & A1 & O1). pose proof (hCopyNew_nodup _ _ _ _ _ X) as ND. rewrite X. cbn [rbind]. pose proof (hDropLevel_sim pp (o 1%nat) h1 d (hsc c) n K1) as S.
    assert (ES : match DropLevel pp (o 1%nat) (CK (view h1 d) (hsc c)) n with Ok w => csc w = hsc c | Panic => True end).
    { unfold DropLevel. cbn [cv csc]. destruct (ctLevel _); cbn [rbind]; [|exact Logic.I]. destruct (_ <? _)%nat; [exact Logic.I|]. destruct (rfold _ _ _); cbn [rbind csc]; [reflexivity|exact Logic.I]. }
    destruct (DropLevel pp (o 1%nat) (CK (view h1 d) (hsc c)) n) as [w|]; cbn [rbind sim simN] in *; [|rewrite S; reflexivity]. destruct S as (h2 & -> & K2 & E2 & O2). cbn [rbind]. exists h2, (HC d (hsc c)). unfold V. cbn [hv hsc]. split; [reflexivity|]. split; [exact K2|].
    rewrite E2, <- ES. split; [destruct w; reflexivity|]. split; [exact A1|]. split; [exact ND|]. apply (only_trans _ _ _ _ _ _ O1 O2). intros r Hr [H|H]; [exact H|]. apply A1 in H. exfalso. lia.
  Qed.

  (** rotation *)
  Lemma hrotChain_ok pp (o : nat -> order) crs rk : forall fuel k rot h tmp out, hok h tmp -> hok h out -> disj tmp out ->
    match rotChain pp o crs fuel k rot rk (view h tmp) (view h out) with Panic => hrotChain pp o crs fuel k rot rk h tmp out = Panic
    | Ok v => exists h', hrotChain pp o crs fuel k rot rk h tmp out = Ok h' /\ hok h' out /\ view h' out = v /\ only (fun r => inr tmp r \/ inr out r) h h' end.
  Proof.
    induction fuel as [|fuel IH]; intros k rot h tmp out KT KO D; cbn [rotChain hrotChain].
    - destruct (0 <? rot); [reflexivity|]. exists h. split; [reflexivity|]. split; [exact KO|]. split; [reflexivity|apply only_refl].
    - destruct (0 <? rot); [|exists h; split; [reflexivity|]; split; [exact KO|]; split; [reflexivity|apply only_refl]]. destruct (negb (rot mod 2 =? 0)); cbn [rbind]; [|apply IH; assumption].
      unfold Rotate. pose proof (hRotate_sim pp (o fuel) crs None h tmp k rk out KT KO D) as S. destruct (RotateGen pp (o fuel) crs None (view h tmp) k rk (view h out)) as [w|]; cbn [rbind sim] in *; [|rewrite S; reflexivity].
      destruct S as (h1 & -> & K1 & <- & O1). cbn [rbind]. assert (KT1 : hok h1 tmp) by (apply (only_hok _ _ _ _ O1 KT)). assert (VT1 : view h1 tmp = view h tmp) by (apply (only_view _ _ _ _ O1 KT); exact D).
      pose proof (hCopy_sim (o fuel 9%nat) h1 tmp out KT1 K1 (disj_sym _ _ D)) as S. rewrite VT1 in S. destruct (Copy (o fuel 9%nat) (view h tmp) (view h1 out)) as [t|]; cbn [rbind sim] in *; [|rewrite S; reflexivity].
      destruct S as (h2 & -> & K2 & <- & O2). cbn [rbind]. assert (KO2 : hok h2 out) by (apply (only_hok _ _ _ _ O2 K1)). assert (VO2 : view h2 out = view h1 out) by (apply (only_view _ _ _ _ O2 K1); exact (disj_sym _ _ D)).
      rewrite <- VO2. specialize (IH (k * 2) (rot / 2) h2 tmp out K2 KO2 D). destruct (rotChain pp o crs fuel (k * 2) (rot / 2) rk (view h2 tmp) (view h2 out)) as [v|]; [|exact IH]. destruct IH as (h3 & X3 & K3 & E3 & O3). exists h3. split; [exact X3|]. split; [exact K3|]. split; [exact E3|].
      eapply (only_trans (fun r => inr tmp r \/ inr out r) _ _ h h2 h3); [|exact O3|tauto]. apply (only_trans _ _ _ _ _ _ O1 O2). tauto.
  Qed.
  Lemma hrotate_ok pp (o : nat -> order) crs rk h c rot out : hok h c -> hok h out -> disj c out -> (forall n, order_ok (o n)) ->
    match rotate pp o crs (view h c) rot rk (view h out) with Panic => hrotate pp o crs h c rot rk out = Panic
    | Ok v => exists h', hrotate pp o crs h c rot rk out = Ok h' /\ hok h' out /\ view h' out = v /\ only (inr out) h h' end.
  Proof.
    intros KC KO D OO. unfold rotate, hrotate. destruct (rotNorm rot) as [k|]; cbn [rbind]; [|reflexivity]. destruct (k =? 0).
    { pose proof (hCopy_sim (o 0%nat 0%nat) h out c KO KC D) as S. destruct (Copy _ (view h out) (view h c)) as [v|]; cbn [sim] in S; [|exact S]. destruct S as (h1 & E & K1 & V1 & O1). exists h1. repeat (split; [assumption|]). exact O1. }
    destruct (mget Z.eq_dec crs k) as [ck|].
    { pose proof (hRotate_sim pp (o 0%nat) crs None h c k rk out KC KO D) as S. unfold Rotate. destruct (RotateGen pp (o 0%nat) crs None (view h c) k rk (view h out)) as [v|]; cbn [sim] in S; [|exact S]. destruct S as (h1 & E & K1 & V1 & O1). exists h1. repeat (split; [assumption|]). exact O1. }
    pose proof (hCopyNew_sim (o 0%nat 0%nat) h c KC (OO 0%nat 0%nat)) as S. destruct (CopyNew _ (view h c)) as [v|]; cbn [rbind]; [|rewrite S; reflexivity]. destruct S as (h1 & tmp & -> & <- & K1 & A1 & O1). cbn [rbind].
    assert (KO1 : hok h1 out) by (apply (only_hok _ _ _ _ O1 KO)). assert (VO1 : view h1 out = view h out) by (apply (only_view _ _ _ _ O1 KO); unfold nowhere; tauto).
    assert (D1 : disj tmp out) by (apply (above_disj _ _ _ _ A1 KO); lia). rewrite <- VO1. pose proof (hrotChain_ok pp o crs rk (Z.to_nat k) 1 k h1 tmp out K1 KO1 D1) as S.
    destruct (rotChain _ _ _ _ _ _ _ _ _) as [v|]; [|exact S]. destruct S as (h2 & E & K2 & V2 & O2). exists h2. split; [exact E|]. split; [exact K2|]. split; [exact V2|].
    apply (only_trans _ _ _ _ _ _ O1 O2). intros r Hr [H|[H|H]]; [destruct H|apply A1 in H; exfalso; lia|exact H].
  Qed.
  (** the pattern: allocate, then run something that writes only the result *)
  Lemma simN_run o h ids level s (hr : heap -> hct -> res heap) (vr : ctT N -> res (ctT N)) :
    (forall h1 v, hok h1 v -> above (length h) v -> only nowhere h h1 -> match vr (view h1 v) with Panic => hr h1 v = Panic | Ok w => exists h', hr h1 v = Ok h' /\ hok h' v /\ view h' v = w /\ only (inr v) h1 h' end) ->
    simN nowhere h (let '(h, v) := hNew o h ids level in h <- hr h v ;; Ok (h, HC v s)) (v <- vr (NewCiphertext o ids level) ;; Ok (CK v s)).
  Proof.
    intros F. pose proof (hNew_ok o h ids level) as A. pose proof (hNew_nodup o h ids level) as ND. destruct (hNew o h ids level) as [h1 v]. destruct A as (A1 & A2 & A3 & A4). rewrite <- A1. specialize (F h1 v A2 A3 A4).
    destruct (vr (view h1 v)) as [w|]; cbn [rbind simN]; [|rewrite F; reflexivity]. destruct F as (h2 & -> & K & E & O). cbn [rbind]. exists h2, (HC v s). split; [reflexivity|]. cbn [hv hsc V]. split; [exact K|]. unfold V. cbn [hv hsc]. rewrite E. split; [reflexivity|].
    split; [exact A3|]. split; [exact ND|]. apply (only_trans _ _ _ _ _ _ A4 O). intros r Hr [H|H]; [exact H|]. apply A3 in H. exfalso. lia.
  Qed.
  Lemma later h h1 d v : hok h d -> above (length h) v -> only nowhere h h1 -> hok h1 d /\ view h1 d = view h d /\ disj d v.
  Proof.
    intros K A O. split; [apply (only_hok _ _ _ _ O K)|]. split; [apply (only_view _ _ _ _ O K); unfold nowhere; tauto|]. apply disj_sym. apply (above_disj _ _ _ _ A K). lia.
  Qed.
  Lemma hRotateNew_sim pp (o : nat -> order) crs rk h (c : hck) rot : hok h (hv c) -> (forall n, order_ok (o n)) ->
    simN nowhere h (hRotateNew pp o crs h c rot rk) (RotateNew pp o crs (V h c) rot rk).
  Proof.
    intros K OO. unfold hRotateNew, RotateNew. cbn [V cv csc]. rewrite (rd_ids _ _ _ _ (reads_hok _ _ K)), (rd_level _ _ _ (reads_hok _ _ K)). unfold V. cbn [cv csc].
    destruct (IDSetOf _ (view h (hv c))) as [ids|]; cbn [rbind]; [|reflexivity]. destruct (ctLevel (view h (hv c))) as [level|]; cbn [rbind]; [|reflexivity].
    apply simN_run with (hr := fun h v => hrotate pp o crs h (hv c) rot rk v) (vr := fun v => rotate pp o crs (view h (hv c)) rot rk v). intros h1 v K1 A1 O1. destruct (later _ _ _ _ K A1 O1) as (K2 & <- & D). apply hrotate_ok; assumption.
  Qed.
  Lemma hRotateHoistedNew_sim pp (o : nat -> order) crs rk h (c : hck) rot dg : hok h (hv c) ->
    simN nowhere h (hRotateHoistedNew pp o crs h c rot dg rk) (RotateHoistedNew pp o crs (V h c) rot dg rk).
  Proof.
    intros K. unfold hRotateHoistedNew, RotateHoistedNew. cbn [V cv csc]. rewrite (rd_ids _ _ _ _ (reads_hok _ _ K)), (rd_level _ _ _ (reads_hok _ _ K)). unfold V. cbn [cv csc].
    destruct (IDSetOf _ (view h (hv c))) as [ids|]; cbn [rbind]; [|reflexivity]. destruct (ctLevel (view h (hv c))) as [level|]; cbn [rbind]; [|reflexivity].
    apply simN_run with (hr := fun h v => k <- rotNorm (N := N) rot ;; if k =? 0 then hCopy (o 0%nat 0%nat) h v (hv c) else match mget Z.eq_dec crs k with Some _ => hRotateGen pp (o 0%nat) crs (Some dg) h (hv c) k rk v | None => Panic end)
      (vr := fun v => rotateHoisted pp o crs (view h (hv c)) rot dg rk v). intros h1 v K1 A1 O1. destruct (later _ _ _ _ K A1 O1) as (K2 & <- & D). unfold rotateHoisted. destruct (rotNorm rot) as [k|]; cbn [rbind]; [|reflexivity].
    assert (G : forall hr vr, sim h1 v hr vr -> match vr with Panic => hr = Panic | Ok w => exists h', hr = Ok h' /\ hok h' v /\ view h' v = w /\ only (inr v) h1 h' end) by (intros hr [w|] S; exact S).
    destruct (k =? 0); [apply G; apply hCopy_sim; assumption|]. destruct (mget Z.eq_dec crs k); [|reflexivity]. apply G. apply hRotate_sim; assumption.
  Qed.
  Lemma hConjugateNew_sim pp o crs ck h (c : hck) : hok h (hv c) -> simN nowhere h (hConjugateNew pp o crs h c ck) (ConjugateNew pp o crs (V h c) ck).
  Proof.
    intros K. unfold hConjugateNew, ConjugateNew. cbn [V cv csc]. rewrite (rd_ids _ _ _ _ (reads_hok _ _ K)), (rd_level _ _ _ (reads_hok _ _ K)). unfold V. cbn [cv csc].
    destruct (IDSetOf _ (view h (hv c))) as [ids|]; cbn [rbind]; [|reflexivity]. destruct (ctLevel (view h (hv c))) as [level|]; cbn [rbind]; [|reflexivity].
    apply simN_run with (hr := fun h v => hConjugate pp o crs h (hv c) ck v) (vr := fun v => Conjugate pp o crs (view h (hv c)) ck v). intros h1 v K1 A1 O1. destruct (later _ _ _ _ K A1 O1) as (K2 & <- & D).
    pose proof (hConj_sim pp o crs h1 (hv c) ck v K2 K1 D) as S. destruct (Conjugate _ _ _ _ _ _); exact S.
  Qed.

  (** products *)
  Lemma hMulH_sim pp o crs ps h (c0 c1 : hck) (d0 d1 : option (hoisted N)) rs : hok h (hv c0) -> hok h (hv c1) -> simN nowhere h (hMulRelinHoistedNew pp o crs ps h c0 c1 d0 d1 rs) (MulRelinHoistedNew pp o crs ps (V h c0) (V h c1) d0 d1 rs).
  Proof.
    intros K0 K1. unfold hMulRelinHoistedNew, MulRelinHoistedNew, mulRelinHoisted. pose proof (hNewBinary_sim o h c0 c1 K0 K1) as S. destruct (newCiphertextBinary o (V h c0) (V h c1)) as [vo|]; cbn [rbind simN] in *; [|rewrite S; reflexivity].
    destruct S as (h1 & out & -> & KO & <- & A1 & ND & O1). cbn [rbind V cv csc]. destruct (later _ _ _ _ K0 A1 O1) as (K01 & V01 & D0). destruct (later _ _ _ _ K1 A1 O1) as (K11 & V11 & D1).
    rewrite (rd_level _ _ _ (reads_hok _ _ K01)), (rd_level _ _ _ (reads_hok _ _ K11)), (rd_level _ _ _ (reads_hok _ _ KO)), V01, V11. unfold V. cbn [cv csc].
    destruct (ctLevel (view h (hv c0))) as [l0|]; cbn [rbind]; [|reflexivity]. destruct (ctLevel (view h (hv c1))) as [l1|]; cbn [rbind]; [|reflexivity]. destruct (ctLevel (view h1 (hv out))) as [lo|]; cbn [rbind]; [|reflexivity].
    set (level := Nat.min (Nat.min l0 l1) lo).
    assert (G : sim h1 (hv out) (if (level <? lo)%nat then hDropLevel pp (o 40%nat) h1 (hv out) (lo - level) else Ok h1) (d <- (if (level <? lo)%nat then DropLevel pp (o 40%nat) (CK (view h1 (hv out)) f_zero) (lo - level) else Ok (CK (view h1 (hv out)) f_zero)) ;; Ok (cv d))).
    { destruct (level <? lo)%nat; [apply hDropLevel_sim; exact KO|]. cbn [rbind cv]. apply sim_ok. apply U_init. exact KO. }
    destruct (if (level <? lo)%nat then DropLevel pp (o 40%nat) (CK (view h1 (hv out)) f_zero) (lo - level) else Ok (CK (view h1 (hv out)) f_zero)) as [w|]; cbn [rbind sim] in *; [|rewrite G; reflexivity]. destruct G as (h2 & -> & KO2 & EO2 & O2). cbn [rbind].
    assert (KK : forall d, hok h1 d -> disj d (hv out) -> hok h2 d /\ view h2 d = view h1 d) by (intros d Kd Dd; split; [apply (only_hok _ _ _ _ O2 Kd)|apply (only_view _ _ _ _ O2 Kd); exact Dd]).
    destruct (KK _ K01 D0) as (K02 & V02). destruct (KK _ K11 D1) as (K12 & V12). rewrite <- V01, <- V11, <- V02, <- V12, <- EO2. pose proof (hMul_sim pp o crs h2 (hv c0) (hv c1) d0 d1 rs (hv out) K02 K12 KO2 D0 D1) as S.
    destruct (MulAndRelinHoisted _ _ _ _ _ _ _ _ _) as [m|]; cbn [rbind sim] in *; [|rewrite S; reflexivity]. destruct S as (h3 & -> & K3 & E3 & O3). cbn [rbind].
    set (out' := HC (hv out) (f_mul (hsc c0) (hsc c1))). pose proof (hRescale_same pp (o 41%nat) h3 out' ps K3) as S. cbn [hv hsc out'] in S. rewrite E3 in S.
    destruct (Rescale pp (o 41%nat) (CK m (f_mul (hsc c0) (hsc c1))) ps None) as [[r e]|]; cbn [simR rbind] in *; [|rewrite S; reflexivity]. destruct S as (h4 & X4 & K4 & E4 & O4). rewrite X4. cbn [rbind].
    exists h4, (HC (hv out) (csc r)). cbn [hv hsc]. split; [reflexivity|]. split; [exact K4|]. unfold V. cbn [hv hsc]. rewrite E4. split; [destruct r; reflexivity|]. split; [exact A1|]. split; [exact ND|].
    assert (OO : only (inr (hv out)) h1 h4) by (apply (only_trans (inr (hv out)) (inr (hv out)) _ _ h3 _); [apply (only_trans _ _ _ _ _ _ O2 O3); tauto|exact O4|tauto]).
    apply (only_trans _ _ _ _ _ _ O1 OO). intros r0 Hr [H|H]; [exact H|]. apply A1 in H. exfalso. lia.
  Qed.
  Lemma hMul_new pp o crs ps h (c0 c1 : hck) same rs : hok h (hv c0) -> hok h (hv c1) -> simN nowhere h (hMulRelinNew pp o crs ps h c0 c1 same rs) (MulRelinNew pp o crs ps (V h c0) (V h c1) same rs).
  Proof.
    intros K0 K1. unfold hMulRelinNew, MulRelinNew. change (cv (V h c0)) with (view h (hv c0)). change (cv (V h c1)) with (view h (hv c1)). rewrite (rd_ids _ _ _ _ (reads_hok _ _ K0)), (rd_ids _ _ _ _ (reads_hok _ _ K1)). destruct (IDSetOf _ (view h (hv c0))) as [i0|]; cbn [rbind]; [|reflexivity]. destruct same.
    - rewrite (rd_into _ _ _ _ _ (V h c0) _ (reads_hok _ _ K0)). destruct (hoistInto _ _ _ _ _) as [d|]; cbn [rbind]; [|reflexivity]. apply hMulH_sim; assumption.
    - destruct (IDSetOf _ (view h (hv c1))) as [i1|]; cbn [rbind]; [|reflexivity]. rewrite (rd_into _ _ _ _ _ (V h c0) _ (reads_hok _ _ K0)), (rd_into _ _ _ _ _ (V h c1) _ (reads_hok _ _ K1)).
      destruct (hoistInto _ _ _ (V h c0) _) as [d0|]; cbn [rbind]; [|reflexivity]. destruct (hoistInto _ _ _ (V h c1) _) as [d1|]; cbn [rbind]; [|reflexivity]. apply hMulH_sim; assumption.
  Qed.
  Lemma hMulPtxt_sim pp o ps h (c : hck) st pt s : hok h (hv c) ->
    match MulPtxtNew pp o ps st (V h c) pt s with Panic => hMulPtxtNew pp o ps h (polyQPool st) c pt s = Panic
    | Ok (st', v) => exists h' (c' : hck), hMulPtxtNew pp o ps h (polyQPool st) c pt s = Ok (h', polyQPool st', c') /\ ctxtPool st' = ctxtPool st /\ hok h' (hv c') /\ V h' c' = v /\ above (length h) (hv c') /\ NoDup (keys (hv c')) /\ only nowhere h h' end.
  Proof.
    intros K. unfold MulPtxtNew, hMulPtxtNew. cbn [V cv csc]. rewrite (rd_ids _ _ _ _ (reads_hok _ _ K)), (rd_level _ _ _ (reads_hok _ _ K)). unfold V. cbn [cv csc].
    destruct (IDSetOf _ (view h (hv c))) as [ids|]; cbn [rbind]; [|reflexivity]. destruct (ctLevel (view h (hv c))) as [level|]; cbn [rbind]; [|reflexivity].
    pose proof (hNew_ok (o 1%nat) h ids level) as A. pose proof (hNew_nodup (o 1%nat) h ids level) as ND. destruct (hNew _ h ids level) as [h1 v]. destruct A as (A1 & A2 & A3 & A4). unfold ckNew. cbn [cv csc snd] in *. rewrite <- A1.
    destruct (length (prows pt) <=? level)%nat; [reflexivity|]. destruct (wrLvl level _ (polyQPool st)) as [pool|]; cbn [rbind]; [|reflexivity]. destruct (later _ _ _ _ K A3 A4) as (K1 & V1 & D). rewrite keys_view.
    match goal with |- context [rbind (rfold ?f _ (view h1 v)) _] => match goal with |- context [rbind (rfold ?g _ h1) _] => assert (G : sim h1 v (rfold g (o 2%nat (keys (hv c))) h1) (rfold f (o 2%nat (keys (hv c))) (view h1 v))) end end.
    { apply sim_fold; [apply U_init; exact A2|]. intros id h2 v2 _ U2. rewrite (rd_getL _ _ _ _ _ (reads_other _ _ _ _ _ U2 K1 D)), V1, (proj2 (reads_U _ _ _ _ U2)). apply sim_same. intros p _. destruct (cget v2 id) as [q|] eqn:E; cbn [rbind]; [|reflexivity]. apply (sim_write _ _ _ _ _ _ q U2 E). }
    destruct (rfold _ _ (view h1 v)) as [w|]; cbn [rbind sim] in *; [|rewrite G; reflexivity]. destruct G as (h2 & -> & K2 & <- & O2). cbn [rbind].
    pose proof (hRescale_same pp (o 3%nat) h2 (HC v (f_mul (hsc c) s)) ps K2) as S. cbn [hv hsc] in S. destruct (Rescale _ _ _ _ None) as [[r e]|]; cbn [rbind simR] in *; [|rewrite S; reflexivity]. destruct S as (h3 & -> & K3 & E3 & O3). cbn [rbind].
    exists h3, (HC v (csc r)). cbn [hv hsc polyQPool ctxtPool]. split; [reflexivity|]. split; [reflexivity|]. split; [exact K3|]. rewrite E3. split; [destruct r; reflexivity|]. split; [exact A3|]. split; [exact ND|].
    assert (OO : only (inr v) h1 h3) by (apply (only_trans _ _ _ _ _ _ O2 O3); tauto). apply (only_trans _ _ _ _ _ _ A4 OO). intros r0 Hr [H|H]; [exact H|]. apply A3 in H. exfalso. lia.
  Qed.

  (** sums: the receiver and ctxtPool are written *)
  Lemma DropLevel_sc pp o (c : ckct N) n (d : ckct N) : DropLevel pp o c n = Ok d -> csc d = csc c.
  Proof. unfold DropLevel. destruct (ctLevel _); cbn [rbind]; [|discriminate]. destruct (_ <? _)%nat; [discriminate|]. destruct (rfold _ _ _); cbn [rbind]; [|discriminate]. intros E. injection E as <-. reflexivity. Qed.
  Lemma hEval_sim pp (o : order) h pool (c0 c1 out : hck) pol ev : hok h pool -> hok h (hv c0) -> hok h (hv c1) -> hok h (hv out) ->
    disj (hv c0) pool -> disj (hv c1) pool -> disj (hv out) pool -> disj (hv c0) (hv out) -> disj (hv c1) (hv out) ->
    match evaluateInPlace pp o (EV (view h pool) pol) (V h c0) (V h c1) (V h out) ev with Panic => hEvaluateInPlace pp o h pool c0 c1 out ev = Panic
    | Ok (st, v) => exists h' pool', hEvaluateInPlace pp o h pool c0 c1 out ev = Ok (h', pool') /\ hok h' pool' /\ hok h' (hv out) /\ st = EV (view h' pool') pol /\ V h' out = v /\
        (forall r, inr pool' r -> inr pool r \/ (length h <= r)%nat) /\ only (fun r => inr pool r \/ inr (hv out) r) h h' end.
  Proof.
    intros KP K0 K1 KO D0P D1P DOP D0 D1. unfold evaluateInPlace, hEvaluateInPlace. cbn [V cv csc ctxtPool polyQPool]. rewrite (rd_ids _ _ _ _ (reads_hok _ _ K0)), (rd_ids _ _ _ _ (reads_hok _ _ K1)). unfold V. cbn [cv csc].
    destruct (IDSetOf _ (view h (hv c0))) as [i0|]; cbn [rbind]; [|reflexivity]. destruct (IDSetOf _ (view h (hv c1))) as [i1|]; cbn [rbind]; [|reflexivity]. destruct (is_union o 2%nat i0 i1) as [ids|]; cbn [rbind]; [|reflexivity].
    pose proof (hPad_ok (fun n => o (10 + n)%nat) h pool ids KP) as S. destruct (PadCiphertext _ (view h pool) ids) as [pv|]; cbn [rbind]; [|rewrite S; reflexivity]. destruct S as (h1 & p1 & -> & <- & KP1 & O1 & AP). cbn [rbind].
    assert (LT : forall d, hok h d -> hok h1 d /\ view h1 d = view h d) by (intros d Kd; split; [apply (only_hok _ _ _ _ O1 Kd)|apply (only_view _ _ _ _ O1 Kd); unfold nowhere; tauto]).
    assert (DP : forall d, hok h d -> disj d pool -> disj d p1) by (intros d Kd Dd r H1 H2; apply AP in H2; destruct H2 as [H2|H2]; [apply (Dd r H1 H2)|apply Kd in H1; lia]).
    destruct (LT _ K0) as [K01 V01]. destruct (LT _ K1) as [K11 V11]. destruct (LT _ KO) as [KO1 VO1]. pose proof (DP _ K0 D0P) as E0P. pose proof (DP _ K1 D1P) as E1P. pose proof (DP _ KO DOP) as EOP.
    rewrite (rd_level _ _ _ (reads_hok _ _ K01)), (rd_level _ _ _ (reads_hok _ _ K11)), (rd_level _ _ _ (reads_hok _ _ KO1)), <- V01, <- V11, <- VO1. clear LT DP.
    destruct (ctLevel (view h1 (hv c0))) as [l0|]; cbn [rbind]; [|reflexivity]. destruct (ctLevel (view h1 (hv c1))) as [l1|]; cbn [rbind]; [|reflexivity]. destruct (ctLevel (view h1 (hv out))) as [lo|]; cbn [rbind]; [|reflexivity].
    set (level := Nat.min (Nat.min l0 l1) lo).
    assert (G : sim h1 (hv out) (if (level <? lo)%nat then hDropLevel pp (o 4%nat) h1 (hv out) (lo - Nat.min l0 l1) else Ok h1) (d <- (if (level <? lo)%nat then DropLevel pp (o 4%nat) (CK (view h1 (hv out)) (hsc out)) (lo - Nat.min l0 l1) else Ok (CK (view h1 (hv out)) (hsc out))) ;; Ok (cv d))).
    { destruct (level <? lo)%nat; [apply hDropLevel_sim; exact KO1|]. cbn [rbind cv]. apply sim_ok. apply U_init. exact KO1. }
    assert (SC : match (if (level <? lo)%nat then DropLevel pp (o 4%nat) (CK (view h1 (hv out)) (hsc out)) (lo - Nat.min l0 l1) else Ok (CK (view h1 (hv out)) (hsc out))) with Ok w => csc w = hsc out | Panic => True end).
    { destruct (level <? lo)%nat; [|reflexivity]. destruct (DropLevel _ _ _ _) as [w|] eqn:E; [|exact Logic.I]. apply DropLevel_sc in E. exact E. }
    destruct (if (level <? lo)%nat then DropLevel pp (o 4%nat) (CK (view h1 (hv out)) (hsc out)) (lo - Nat.min l0 l1) else Ok (CK (view h1 (hv out)) (hsc out))) as [w|]; cbn [rbind sim] in *; [|rewrite G; reflexivity]. destruct G as (h2 & -> & KO2 & EO2 & O2). cbn [rbind]. rewrite SC.
    set (r10 := f_floor (f_div (hsc c1) (hsc c0))). set (r01 := f_floor (f_div (hsc c0) (hsc c1))).
    assert (LT : forall d, hok h1 d -> disj d (hv out) -> hok h2 d /\ view h2 d = view h1 d) by (intros d Kd Dd; split; [apply (only_hok _ _ _ _ O2 Kd)|apply (only_view _ _ _ _ O2 Kd); exact Dd]).
    destruct (LT _ K01 D0) as [K02 V02]. destruct (LT _ K11 D1) as [K12 V12]. destruct (LT _ KP1 (disj_sym _ _ EOP)) as [KP2 VP2]. rewrite <- V02, <- V12, <- VP2. clear LT.
    (* the scaled operand *)
    assert (T : forall (vt : res (ctT N * ctT N * ctT N)) (ht : res (heap * hct * hct)),
      vt = (if f_gt (hsc c1) (hsc c0) && f_gt r10 f_one then p <- MultByConst pp (o 5%nat) (CK (view h2 (hv c0)) (hsc c0)) (CFloat r10) (CK (view h2 p1) (hsc out)) ;; Ok (cv p, cv p, view h2 (hv c1))
            else if f_gt (hsc c0) (hsc c1) && f_gt r01 f_one then p <- MultByConst pp (o 5%nat) (CK (view h2 (hv c1)) (hsc c1)) (CFloat r01) (CK (view h2 p1) (hsc out)) ;; Ok (cv p, view h2 (hv c0), cv p)
            else Ok (view h2 p1, view h2 (hv c0), view h2 (hv c1))) ->
      ht = (if f_gt (hsc c1) (hsc c0) && f_gt r10 f_one then '(h, _) <- hMultByConst pp (o 5%nat) h2 c0 (CFloat r10) p1 ;; Ok (h, p1, hv c1)
            else if f_gt (hsc c0) (hsc c1) && f_gt r01 f_one then '(h, _) <- hMultByConst pp (o 5%nat) h2 c1 (CFloat r01) p1 ;; Ok (h, hv c0, p1)
            else Ok (h2, hv c0, hv c1)) ->
      match vt with Panic => ht = Panic | Ok (pv, t0, t1) => exists h3 x0 x1, ht = Ok (h3, x0, x1) /\ hok h3 p1 /\ hok h3 x0 /\ hok h3 x1 /\ hok h3 (hv out) /\ view h3 p1 = pv /\ view h3 x0 = t0 /\ view h3 x1 = t1 /\ view h3 (hv out) = view h2 (hv out) /\
        disj x0 (hv out) /\ disj x1 (hv out) /\ only (inr p1) h2 h3 end).
    { intros vt ht -> ->. destruct (f_gt (hsc c1) (hsc c0) && f_gt r10 f_one)%bool.
      - pose proof (hMultByConst_sim pp (o 5%nat) h2 c0 (CFloat r10) p1 (hsc out) K02 KP2 E0P) as S. destruct (MultByConst _ _ _ _ _) as [m|]; cbn [rbind simS] in *; [|rewrite S; reflexivity]. destruct S as (h3 & -> & K3 & E3 & O3). cbn [rbind].
        exists h3, p1, (hv c1). split; [reflexivity|]. split; [exact K3|]. split; [exact K3|]. split; [apply (only_hok _ _ _ _ O3 K12)|]. split; [apply (only_hok _ _ _ _ O3 KO2)|]. split; [exact E3|]. split; [exact E3|]. split; [apply (only_view _ _ _ _ O3 K12); exact E1P|].
        split; [apply (only_view _ _ _ _ O3 KO2); exact EOP|]. split; [apply disj_sym; exact EOP|]. split; [exact D1|exact O3].
      - destruct (f_gt (hsc c0) (hsc c1) && f_gt r01 f_one)%bool.
        + pose proof (hMultByConst_sim pp (o 5%nat) h2 c1 (CFloat r01) p1 (hsc out) K12 KP2 E1P) as S. destruct (MultByConst _ _ _ _ _) as [m|]; cbn [rbind simS] in *; [|rewrite S; reflexivity]. destruct S as (h3 & -> & K3 & E3 & O3). cbn [rbind].
          exists h3, (hv c0), p1. split; [reflexivity|]. split; [exact K3|]. split; [apply (only_hok _ _ _ _ O3 K02)|]. split; [exact K3|]. split; [apply (only_hok _ _ _ _ O3 KO2)|]. split; [exact E3|]. split; [apply (only_view _ _ _ _ O3 K02); exact E0P|]. split; [exact E3|].
          split; [apply (only_view _ _ _ _ O3 KO2); exact EOP|]. split; [exact D0|]. split; [apply disj_sym; exact EOP|exact O3].
        + exists h2, (hv c0), (hv c1). split; [reflexivity|]. split; [exact KP2|]. split; [exact K02|]. split; [exact K12|]. split; [exact KO2|]. split; [reflexivity|]. split; [reflexivity|]. split; [reflexivity|]. split; [reflexivity|]. split; [exact D0|]. split; [exact D1|apply only_refl]. }
    specialize (T _ _ eq_refl eq_refl). rewrite <- EO2.
    match type of T with match ?x with _ => _ end => destruct x as [[[pv t0] t1]|] end; cbn [rbind]; [|rewrite T; reflexivity]. destruct T as (h3 & x0 & x1 & -> & KP3 & KX0 & KX1 & KO3 & <- & <- & <- & VO3 & DX0 & DX1 & O3). cbn [rbind].
    rewrite (rd_getL _ _ _ _ _ (reads_hok _ _ KX0)), (rd_getL _ _ _ _ _ (reads_hok _ _ KX1)), (proj2 (reads_hok _ _ KO3)), <- VO3.
    destruct (cgetL (view h3 x0) id0 level) as [a0|]; cbn [rbind]; [|reflexivity]. destruct (cgetL (view h3 x1) id0 level) as [b0|]; cbn [rbind]; [|reflexivity]. destruct (cget (view h3 (hv out)) id0) as [p|] eqn:EP; cbn [rbind]; [|reflexivity].
    destruct (wrLvl level _ _) as [rows|]; cbn [rbind]; [|reflexivity]. destruct (sim_write _ _ _ _ id0 (Pol rows (pntt p)) p (U_init _ _ KO3) EP) as (h4 & -> & U4). cbn [rbind]. rewrite (hIDSet_U _ _ _ _ _ U4).
    destruct (IDSetOf (o 6%nat) _) as [idso|]; cbn [rbind]; [|reflexivity].
    match goal with |- context [rbind (rfold ?f _ (cset _ _ _)) _] => match goal with |- context [rbind (rfold ?g _ h4) _] => assert (G : sim h3 (hv out) (rfold g (o 7%nat (keys idso)) h4) (rfold f (o 7%nat (keys idso)) (cset (view h3 (hv out)) id0 (Pol rows (pntt p))))) end end.
    { apply sim_fold; [exact U4|]. intros id h5 v5 _ U5. rewrite (proj2 (reads_U _ _ _ _ U5)).
      destruct (cget v5 id) as [q|] eqn:E; cbn [rbind]; [|reflexivity]. rewrite ?(rd_getL _ _ _ _ _ (reads_other _ _ _ _ _ U5 KX0 DX0)), ?(rd_getL _ _ _ _ _ (reads_other _ _ _ _ _ U5 KX1 DX1)).
      destruct (negb (is_has i0 id)); [apply sim_same; intros x _; apply sim_same; intros rr _; apply (sim_write _ _ _ _ _ _ q U5 E)|].
      destruct (negb (is_has i1 id)); [apply sim_same; intros x _; apply sim_same; intros rr _; apply (sim_write _ _ _ _ _ _ q U5 E)|]. apply sim_same. intros a _.
      rewrite ?(rd_getL _ _ _ _ _ (reads_other _ _ _ _ _ U5 KX1 DX1)). apply sim_same. intros b _. apply sim_same. intros rr _. apply (sim_write _ _ _ _ _ _ q U5 E). }
    destruct (rfold _ (o 7%nat (keys idso)) (cset _ _ _)) as [v|]; cbn [rbind sim] in *; [|rewrite G; reflexivity]. destruct G as (h5 & -> & K5 & E5 & O5). cbn [rbind]. exists h5, p1. split; [reflexivity|].
    split; [apply (only_hok _ _ _ _ O5 KP3)|]. split; [exact K5|]. split; [rewrite (only_view _ _ _ _ O5 KP3 (disj_sym _ _ EOP)); reflexivity|]. split; [rewrite E5; reflexivity|]. split; [exact AP|].
    apply (only_trans nowhere (fun r => inr p1 r \/ inr (hv out) r) _ _ _ _ O1).
    - eapply (only_trans (fun r => inr p1 r \/ inr (hv out) r) (inr (hv out)) _ _ h3 _); [|exact O5|tauto]. apply (only_trans _ _ _ _ _ _ O2 O3). tauto.
    - intros r Hr [H|[H|H]]; [destruct H| |tauto]. apply AP in H. destruct H as [H|H]; [tauto|lia].
  Qed.
  Definition simP h pool pol (hr : res (heap * hct * hck)) (vr : res (evalst N * ckct N)) : Prop :=
    match vr with Panic => hr = Panic | Ok (st, v) => exists h' pool' (c : hck), hr = Ok (h', pool', c) /\ hok h' pool' /\ hok h' (hv c) /\ st = EV (view h' pool') pol /\ V h' c = v /\ NoDup (keys (hv c)) /\
      (forall r, inr pool' r -> inr pool r \/ (length h <= r)%nat) /\ above (length h) (hv c) /\ disj (hv c) pool' /\ only (inr pool) h h' end.
  (** the receiver exists: allocate it, then run evaluateInPlace *)
  Lemma hBin_sim pp (o : order) h pool (c0 c1 : hck) pol ev : hok h pool -> hok h (hv c0) -> hok h (hv c1) -> disj (hv c0) pool -> disj (hv c1) pool ->
    simP h pool pol ('(h, out) <- hNewBinary o h c0 c1 ;; '(h, pool) <- hEvaluateInPlace pp o h pool c0 c1 out ev ;; Ok (h, pool, out))
      (out <- newCiphertextBinary o (V h c0) (V h c1) ;; evaluateInPlace pp o (EV (view h pool) pol) (V h c0) (V h c1) out ev).
  Proof.
    intros KP K0 K1 D0 D1. pose proof (hNewBinary_sim o h c0 c1 K0 K1) as S. destruct (newCiphertextBinary o (V h c0) (V h c1)) as [vo|]; cbn [rbind simN] in *; [|rewrite S; reflexivity].
    destruct S as (h1 & out & -> & KO & <- & A1 & ND & O1). cbn [rbind]. destruct (later _ _ _ _ K0 A1 O1) as (K01 & V01 & E0). destruct (later _ _ _ _ K1 A1 O1) as (K11 & V11 & E1). destruct (later _ _ _ _ KP A1 O1) as (KP1 & VP1 & EP).
    pose proof (hEval_sim pp o h1 pool c0 c1 out pol ev KP1 K01 K11 KO D0 D1 (disj_sym _ _ EP) E0 E1) as S. assert (VV0 : V h1 c0 = V h c0) by (unfold V; rewrite V01; reflexivity). assert (VV1 : V h1 c1 = V h c1) by (unfold V; rewrite V11; reflexivity). rewrite VV0, VV1, VP1 in S.
    destruct (evaluateInPlace pp o (EV (view h pool) pol) (V h c0) (V h c1) (V h1 out) ev) as [[st v]|]; cbn [simP]; [|rewrite S; reflexivity]. destruct S as (h2 & p2 & -> & KP2 & KO2 & ES & EV & AP & O2). cbn [rbind].
    exists h2, p2, out. split; [reflexivity|]. split; [exact KP2|]. split; [exact KO2|]. split; [exact ES|]. split; [exact EV|]. split; [exact ND|]. pose proof (proj1 O1) as L1. split; [intros r Hr; apply AP in Hr; destruct Hr as [Hr|Hr]; [tauto|right; lia]|]. split; [exact A1|].
    split; [intros r H1 H2; apply AP in H2; destruct H2 as [H2|H2]; [apply (EP r H2 H1)|apply KO in H1; lia]|].
    apply (only_trans _ _ _ _ _ _ O1 O2). intros r Hr [H|[H|H]]; [destruct H|exact H|]. apply A1 in H. exfalso. lia.
  Qed.
  Lemma hAdd_sim pp (o : order) h pool (c0 c1 : hck) pol : hok h pool -> hok h (hv c0) -> hok h (hv c1) -> disj (hv c0) pool -> disj (hv c1) pool ->
    simP h pool pol (hAddNew pp o h pool c0 c1) (AddNew pp o (EV (view h pool) pol) (V h c0) (V h c1)).
  Proof. intros. apply hBin_sim; assumption. Qed.
  Lemma hSub_sim pp (o : order) h pool (c0 c1 : hck) pol : hok h pool -> hok h (hv c0) -> hok h (hv c1) -> disj (hv c0) pool -> disj (hv c1) pool ->
    simP h pool pol (hSubNew pp o h pool c0 c1) (SubNew pp o (EV (view h pool) pol) (V h c0) (V h c1)).
  Proof.
    intros KP K0 K1 D0 D1. pose proof (hBin_sim pp o h pool c0 c1 pol r_sub KP K0 K1 D0 D1) as S. unfold hSubNew, SubNew.
    destruct (newCiphertextBinary o (V h c0) (V h c1)) as [vo|]; cbn [rbind] in *.
    2:{ cbn [simP] in *. destruct (hNewBinary o h c0 c1) as [[h1 out]|]; cbn [rbind] in *; [|reflexivity]. destruct (hEvaluateInPlace pp o h1 pool c0 c1 out r_sub) as [[h2 p2]|]; cbn [rbind] in *; [discriminate|reflexivity]. }
    destruct (evaluateInPlace pp o (EV (view h pool) pol) (V h c0) (V h c1) vo r_sub) as [[st v]|]; cbn [rbind simP] in *.
    2:{ destruct (hNewBinary o h c0 c1) as [[h1 out]|]; cbn [rbind] in *; [|reflexivity]. destruct (hEvaluateInPlace pp o h1 pool c0 c1 out r_sub) as [[h2 p2]|]; cbn [rbind] in *; [discriminate|reflexivity]. }
    destruct S as (h2 & p2 & out & X & KP2 & KO2 & ES & EV & ND & AP & A2 & DO & O2).
    destruct (hNewBinary o h c0 c1) as [[h1 out']|]; cbn [rbind] in *; [|discriminate]. destruct (hEvaluateInPlace pp o h1 pool c0 c1 out' r_sub) as [[h2' p2']|]; cbn [rbind] in *; [|discriminate]. injection X as -> -> ->.
    assert (LT : forall d, hok h d -> disj d pool -> hok h2 d /\ view h2 d = view h d /\ disj d (hv out)).
    { intros d Kd Dd. split; [apply (only_hok _ _ _ _ O2 Kd)|]. split; [apply (only_view _ _ _ _ O2 Kd); exact Dd|]. apply disj_sym. apply (above_disj _ _ _ _ A2 Kd). lia. }
    destruct (LT _ K0 D0) as (K02 & V02 & E0). destruct (LT _ K1 D1) as (K12 & V12 & E1). clear LT. rewrite <- EV. unfold V. cbn [cv csc].
    rewrite (rd_level _ _ _ (reads_hok _ _ K02)), (rd_level _ _ _ (reads_hok _ _ K12)), (rd_level _ _ _ (reads_hok _ _ KO2)), (rd_ids _ _ _ _ (reads_hok _ _ K02)), (rd_ids _ _ _ _ (reads_hok _ _ KO2)), V02, V12.
    destruct (ctLevel (view h (hv c0))) as [l0|]; cbn [rbind]; [|reflexivity]. destruct (ctLevel (view h (hv c1))) as [l1|]; cbn [rbind]; [|reflexivity]. destruct (ctLevel (view h2 (hv out))) as [lo|]; cbn [rbind]; [|reflexivity].
    destruct (IDSetOf (o 30%nat) _) as [i0|]; cbn [rbind]; [|reflexivity]. destruct (IDSetOf (o 31%nat) _) as [io|]; cbn [rbind]; [|reflexivity].
    match goal with |- context [rbind (rfold ?f _ (view h2 (hv out))) _] => match goal with |- context [rbind (rfold ?g _ h2) _] => assert (G : sim h2 (hv out) (rfold g (o 32%nat (keys io)) h2) (rfold f (o 32%nat (keys io)) (view h2 (hv out)))) end end.
    { apply sim_fold; [apply U_init; exact KO2|]. intros id h5 v5 _ U5. destruct (negb (is_has i0 id)); [|apply sim_ok; exact U5]. rewrite (proj2 (reads_U _ _ _ _ U5)). destruct (cget v5 id) as [q|] eqn:E; cbn [rbind]; [|reflexivity].
      apply sim_same. intros rr _. apply (sim_write _ _ _ _ _ _ q U5 E). }
    destruct (rfold _ (o 32%nat (keys io)) (view h2 (hv out))) as [w|]; cbn [rbind sim] in *; [|rewrite G; reflexivity]. destruct G as (h3 & -> & K3 & E3 & O3). cbn [rbind].
    exists h3, p2, out. split; [reflexivity|]. split; [apply (only_hok _ _ _ _ O3 KP2)|]. split; [exact K3|]. split; [rewrite ES; f_equal; symmetry; apply (only_view _ _ _ _ O3 KP2); exact (disj_sym _ _ DO)|]. split; [unfold V; rewrite E3; reflexivity|].
    split; [exact ND|]. split; [exact AP|]. split; [exact A2|]. split; [exact DO|]. apply (only_trans _ _ _ _ _ _ O2 O3). intros r Hr [H|H]; [exact H|]. apply A2 in H. exfalso. lia.
  Qed.
End Calls.

(** *** worlds *)
Section World.
  Context {N : nat}.
  Notation heap := (heap N).
  Implicit Types (pp : rparams) (h : heap).
  (** no object belongs to two owners; all references are valid *)
  Definition sep h (L : list hct) : Prop := (forall c, In c L -> hok h c) /\ forall i j ci cj, nth_error L i = Some ci -> nth_error L j = Some cj -> i <> j -> disj ci cj.
  Definition owners (w : hworld N) : list hct := hwpool w :: map hv (hwcts w).
  (** the programs on references [w] and on values [u] are in corresponding states *)
  Definition same_world (w : hworld N) (u : vworld N) : Prop :=
    sep (hwh w) (owners w) /\ (forall c, In c (hwcts w) -> NoDup (keys (hv c))) /\ contents w = vwcts u /\ vwev u = EV (view (hwh w) (hwpool w)) (hwpoly w).

  Lemma sep_ct (w : hworld N) a x : sep (hwh w) (owners w) -> nth_error (hwcts w) a = Some x -> hok (hwh w) (hv x) /\ disj (hv x) (hwpool w).
  Proof.
    intros [K D] E. assert (EM : nth_error (map hv (hwcts w)) a = Some (hv x)) by (rewrite nth_error_map, E; reflexivity).
    split; [apply K; right; apply (nth_error_In _ _ EM)|]. apply (D (S a) 0%nat); [exact EM|reflexivity|lia].
  Qed.
  Lemma sep_2 (w : hworld N) a b x y : sep (hwh w) (owners w) -> nth_error (hwcts w) a = Some x -> nth_error (hwcts w) b = Some y -> a <> b -> disj (hv x) (hv y).
  Proof.
    intros [K D] E F NE. apply (D (S a) (S b)); [| |lia]; cbn; rewrite nth_error_map; [rewrite E|rewrite F]; reflexivity.
  Qed.
  Lemma map_ext_nth {A B} (f g : A -> B) (l : list A) : (forall i x, nth_error l i = Some x -> f x = g x) -> map f l = map g l.
  Proof. intros H. apply map_ext_in. intros x I. apply In_nth_error in I. destruct I as [i E]. apply (H i x E). Qed.
  (** a call that returns a new ciphertext and may use the pool *)
  Lemma world_new (w : hworld N) u h' pool' pol' c v : same_world w u -> hok h' pool' -> hok h' (hv c) -> NoDup (keys (hv c)) -> (forall r, inr pool' r -> inr (hwpool w) r \/ (length (hwh w) <= r)%nat) ->
    above (length (hwh w)) (hv c) -> disj (hv c) pool' -> only (inr (hwpool w)) (hwh w) h' -> V h' c = v ->
    same_world (HW h' pool' pol' (hwcts w ++ [c])) (VW (EV (view h' pool') pol') (vwcts u ++ [v])).
  Proof.
    intros (SP & ND & CT & EV') KP KC NC AP AC DC O EC.
    assert (OLD : forall a x, nth_error (hwcts w) a = Some x -> hok h' (hv x) /\ V h' x = V (hwh w) x /\ disj (hv x) pool' /\ disj (hv x) (hv c)).
    { intros a x E. destruct (sep_ct w a x SP E) as [Kx Dx]. split; [apply (only_hok _ _ _ _ O Kx)|]. split; [unfold V; rewrite (only_view _ _ _ _ O Kx Dx); reflexivity|].
      split; [intros r H1 H2; apply AP in H2; destruct H2 as [H2|H2]; [apply (Dx r H1 H2)|apply Kx in H1; lia]|]. apply disj_sym. apply (above_disj _ _ _ _ AC Kx). lia. }
    split; [|split; [|split]].
    - cbn [hwh owners hwpool hwcts]. split.
      + intros d [<-|I]; [exact KP|]. apply in_map_iff in I. destruct I as (x & <- & I). apply in_app_iff in I. destruct I as [I|[<-|[]]]; [|exact KC]. apply In_nth_error in I. destruct I as [a E]. apply (OLD a x E).
      + assert (GET : forall i d, nth_error (map hv (hwcts w ++ [c])) i = Some d -> (exists x, nth_error (hwcts w) i = Some x /\ d = hv x) \/ (i = length (hwcts w) /\ d = hv c)).
        { intros i d E. rewrite nth_error_map in E. destruct (nth_error (hwcts w ++ [c]) i) as [x|] eqn:F; [|discriminate]. injection E as <-. destruct (Nat.lt_ge_cases i (length (hwcts w))) as [L|L].
          - rewrite nth_error_app1 in F by exact L. left. exists x. split; [exact F|reflexivity].
          - rewrite nth_error_app2 in F by exact L. right. destruct (i - length (hwcts w))%nat as [|k] eqn:EI; [|destruct k; discriminate]. cbn in F. injection F as <-. split; [lia|reflexivity]. }
        assert (P0 : forall j d, nth_error (map hv (hwcts w ++ [c])) j = Some d -> disj d pool').
        { intros j d E. destruct (GET j d E) as [(x & F & ->)|[_ ->]]; [apply (OLD j x F)|exact DC]. }
        intros [|i] [|j] ci cj Ei Ej NE; cbn in Ei, Ej; [congruence|injection Ei as <-; apply disj_sym; apply (P0 j cj Ej)|injection Ej as <-; apply (P0 i ci Ei)|].
        destruct (GET i ci Ei) as [(x & F & ->)|[E1 ->]]; destruct (GET j cj Ej) as [(y & G & ->)|[E2 ->]]; [apply (sep_2 w i j x y SP F G); congruence|apply (OLD i x F)|apply disj_sym; apply (OLD j y G)|congruence].
    - cbn [hwcts]. intros d I. apply in_app_iff in I. destruct I as [I|[<-|[]]]; [apply ND; exact I|exact NC].
    - unfold contents. cbn [hwh hwcts vwcts]. rewrite map_app, <- CT. cbn [map]. f_equal; [|f_equal; exact EC]. unfold contents. apply map_ext_nth. intros i x E. destruct (OLD i x E) as (_ & X & _). exact X.
    - reflexivity.
  Qed.
  Lemma world_new0 (w : hworld N) u h' pol' c v : same_world w u -> hok h' (hv c) -> NoDup (keys (hv c)) -> above (length (hwh w)) (hv c) -> only nowhere (hwh w) h' -> V h' c = v ->
    same_world (HW h' (hwpool w) pol' (hwcts w ++ [c])) (VW (EV (ctxtPool (vwev u)) pol') (vwcts u ++ [v])).
  Proof.
    intros S KC NC AC O EC. assert (KP : hok (hwh w) (hwpool w)) by (apply S; left; reflexivity). assert (EP : ctxtPool (vwev u) = view h' (hwpool w)).
    { destruct S as (_ & _ & _ & ->). cbn [ctxtPool]. symmetry. apply (only_view _ _ _ _ O KP). unfold nowhere. tauto. }
    rewrite EP. apply world_new; [exact S|apply (only_hok _ _ _ _ O KP)|exact KC|exact NC|tauto|exact AC|apply (above_disj _ _ _ _ AC KP); lia|apply (only_weaken _ _ _ _ O); unfold nowhere; tauto|exact EC].
  Qed.
  Lemma upd_map {A B} (f : A -> B) (l : list A) : forall i x, map f (upd l i x) = upd (map f l) i (f x).
  Proof. induction l as [|y l IH]; intros [|i] x; cbn; try reflexivity. f_equal. apply IH. Qed.
  (** a call that writes one ciphertext *)
  Lemma world_upd (w : hworld N) u h' b y s v : same_world w u -> nth_error (hwcts w) b = Some y -> hok h' (hv y) -> only (inr (hv y)) (hwh w) h' -> CK (view h' (hv y)) s = v ->
    same_world (HW h' (hwpool w) (hwpoly w) (upd (hwcts w) b (HC (hv y) s))) (VW (vwev u) (upd (vwcts u) b v)).
  Proof.
    intros (SP & ND & CT & EV') EB KY O EC. destruct (sep_ct w b y SP EB) as [KY0 DY]. assert (LB : (b < length (hwcts w))%nat) by (apply nth_error_Some; congruence).
    assert (HVM : map hv (upd (hwcts w) b (HC (hv y) s)) = map hv (hwcts w)).
    { rewrite upd_map. cbn [hv].  clear - EB. revert b EB. induction (hwcts w) as [|z l IH]; intros [|b] EB; cbn in *; try discriminate; [injection EB as ->; reflexivity|]. f_equal. apply IH. exact EB. }
    assert (KP : hok (hwh w) (hwpool w)) by (apply SP; left; reflexivity).
    split; [|split; [|split]].
    - unfold owners. cbn [hwh hwpool hwcts]. rewrite HVM. destruct SP as [K D]. split; [|exact D]. intros d I. apply (only_hok _ _ _ _ O). apply K. exact I.
    - cbn [hwcts]. intros d I. assert (J : In (hv d) (map hv (hwcts w))) by (rewrite <- HVM; apply in_map; exact I). apply in_map_iff in J. destruct J as (z & <- & J). apply ND. exact J.
    - unfold contents. cbn [hwh hwcts vwcts]. rewrite upd_map, <- CT. cbn [hv hsc]. rewrite EC. unfold contents.
      assert (G : forall i x, i <> b -> nth_error (hwcts w) i = Some x -> CK (view h' (hv x)) (hsc x) = CK (view (hwh w) (hv x)) (hsc x)).
      { intros i x NE E. destruct (sep_ct w i x SP E) as [Kx _]. rewrite (only_view _ _ _ _ O Kx (sep_2 w i b x y SP E EB NE)). reflexivity. }
      clear - G. revert b G. induction (hwcts w) as [|z l IH]; intros [|b] G; cbn [upd map]; try reflexivity.
      + f_equal. apply map_ext_nth. intros i x E. apply (G (S i) x); [lia|exact E].
      + f_equal; [apply (G 0%nat z); [lia|reflexivity]|]. apply IH. intros i x NE E. apply (G (S i) x); [lia|exact E].
    - cbn [hwpool hwh vwev hwpoly]. rewrite (only_view _ _ _ _ O KP (disj_sym _ _ DY)). exact EV'.
  Qed.

  Definition gooddata (i : hop N) : Prop := match i with HPut c => NoDup (keys (cv c)) | _ => True end.
  Lemma idx_contents (w : hworld N) u a : contents w = vwcts u -> match idx (hwcts w) a with Ok x => idx (vwcts u) a = Ok (V (hwh w) x) /\ nth_error (hwcts w) a = Some x | Panic => idx (vwcts u) a = Panic end.
  Proof.
    intros E. unfold idx. rewrite <- E. unfold contents. rewrite nth_error_map. destruct (nth_error (hwcts w) a) as [x|]; cbn [option_map]; [split; reflexivity|reflexivity].
  Qed.
  Lemma view_combine (h : heap) (v : ctT N) : forall k, (forall i, (i < length v)%nat -> nth (k + i) h dpoly = nth i (map snd v) dpoly) -> view h (combine (keys v) (seq k (length v))) = v.
  Proof.
    induction v as [|[id p] v IH]; intros k H; cbn; [reflexivity|]. f_equal.
    - f_equal. specialize (H 0%nat ltac:(cbn; lia)). rewrite Nat.add_0_r in H. exact H.
    - apply IH. intros i Hi. specialize (H (S i) ltac:(cbn; lia)). rewrite <- Nat.add_succ_comm in H. exact H.
  Qed.
  Lemma hput_ok (h : heap) (v : ctT N) : let '(h', c) := hput h v in hok h' c /\ view h' c = v /\ above (length h) c /\ keys c = keys v /\ only nowhere h h'.
  Proof.
    unfold hput. assert (LK : length (keys v) = length (seq (length h) (length v))) by (unfold keys; rewrite map_length, seq_length; reflexivity).
    assert (SN : map snd (combine (keys v) (seq (length h) (length v))) = seq (length h) (length v)).
    { revert LK. generalize (seq (length h) (length v)). intros l. revert l. induction (keys v) as [|k ks IH]; intros [|x l] L; cbn in *; try discriminate; [reflexivity|]. f_equal. apply IH. lia. }
    split; [|split; [|split; [|split]]].
    - split; rewrite SN; [apply seq_NoDup|]. intros r Hr. apply in_seq in Hr. rewrite app_length, map_length. lia.
    - apply view_combine. intros i Hi. rewrite app_nth2 by lia. f_equal. lia.
    - intros r Hr. unfold inr in Hr. rewrite SN in Hr. apply in_seq in Hr. lia.
    - clear SN. revert LK. generalize (seq (length h) (length v)). intros l. revert l. unfold keys. induction (map fst v) as [|k ks IH]; intros [|x l] L; cbn in *; try discriminate; [reflexivity|]. f_equal. apply IH. lia.
    - apply only_app.
  Qed.

  Theorem call_sim pp e (o : nat -> order) (w : hworld N) u i : (forall n, order_ok (o n)) -> gooddata i -> same_world w u ->
    match vcall pp e o u i with Panic => hcall pp e o w i = Panic | Ok u' => exists w', hcall pp e o w i = Ok w' /\ same_world w' u' end.
  Proof.
    intros OO GD S. pose proof S as (SP & ND & CT & EV'). assert (KP : hok (hwh w) (hwpool w)) by (apply SP; left; reflexivity).
    assert (EU : vwev u = EV (ctxtPool (vwev u)) (hwpoly w)) by (rewrite EV'; reflexivity).
    assert (NEW : forall hr vr, simN nowhere (hwh w) hr vr ->
      match (v <- vr ;; Ok (VW (vwev u) (vwcts u ++ [v]))) with Panic => ('(h, c) <- hr ;; Ok (HW h (hwpool w) (hwpoly w) (hwcts w ++ [c]))) = Panic
      | Ok u' => exists w', ('(h, c) <- hr ;; Ok (HW h (hwpool w) (hwpoly w) (hwcts w ++ [c]))) = Ok w' /\ same_world w' u' end).
    { intros hr [v|] H; cbn [simN rbind] in *; [|rewrite H; reflexivity]. destruct H as (h' & c & -> & K & E & A & NC & O). cbn [rbind]. eexists. split; [reflexivity|]. rewrite EU. apply world_new0; assumption. }
    destruct i as [c|a|a b|a b|a n|a n|a k b|a s b|a s|a pt s|a b|a b|a k|a k|a]; cbn [hcall vcall gooddata] in *;
      try (pose proof (idx_contents w u a CT) as IA; destruct (idx (hwcts w) a) as [x|]; [destruct IA as [-> EA]|rewrite IA; reflexivity]; cbn [rbind]; destruct (sep_ct w a x SP EA) as [KX DX]).
    - (* HPut *) pose proof (hput_ok (hwh w) (cv c)) as H. destruct (hput (hwh w) (cv c)) as [h' v]. destruct H as (K & E & A & EK & O). eexists. split; [reflexivity|]. rewrite EU. apply world_new0; [exact S|exact K| |exact A|exact O|].
      + cbn [hv]. rewrite EK. exact GD.
      + unfold V. cbn [hv hsc]. rewrite E. destruct c; reflexivity.
    - (* HCopy *) unfold ckCopyNew. cbn [V cv csc]. pose proof (hCopyNew_sim (o 0%nat 0%nat) (hwh w) (hv x) KX (OO 0%nat 0%nat)) as H. unfold V. cbn [cv csc]. destruct (CopyNew _ (view (hwh w) (hv x))) as [v|]; cbn [rbind]; [|rewrite H; reflexivity].
      destruct H as (h' & d & X & E & K & A & O). rewrite X. cbn [rbind]. eexists. split; [reflexivity|]. rewrite EU. apply world_new0; [exact S|exact K|apply (hCopyNew_nodup _ _ _ _ _ X)|exact A|exact O|]. unfold V. cbn [hv hsc]. rewrite E. reflexivity.
    - (* HAdd *) pose proof (idx_contents w u b CT) as IB; destruct (idx (hwcts w) b) as [y|]; [destruct IB as [-> EB]|rewrite IB; reflexivity]; cbn [rbind]; destruct (sep_ct w b y SP EB) as [KY DY].
      pose proof (hAdd_sim pp (o 0%nat) (hwh w) (hwpool w) x y (hwpoly w) KP KX KY DX DY) as H. rewrite EV'. destruct (AddNew _ _ _ _ _) as [[st v]|]; cbn [rbind simP] in *; [|rewrite H; reflexivity].
      destruct H as (h' & p' & c & -> & KP' & KC & -> & EC & NC & AP & AC & DC & O). cbn [rbind]. eexists. split; [reflexivity|]. apply world_new; assumption.
    - (* HSub *) pose proof (idx_contents w u b CT) as IB; destruct (idx (hwcts w) b) as [y|]; [destruct IB as [-> EB]|rewrite IB; reflexivity]; cbn [rbind]; destruct (sep_ct w b y SP EB) as [KY DY].
      pose proof (hSub_sim pp (o 0%nat) (hwh w) (hwpool w) x y (hwpoly w) KP KX KY DX DY) as H. rewrite EV'. destruct (SubNew _ _ _ _ _) as [[st v]|]; cbn [rbind simP] in *; [|rewrite H; reflexivity].
      destruct H as (h' & p' & c & -> & KP' & KC & -> & EC & NC & AP & AC & DC & O). cbn [rbind]. eexists. split; [reflexivity|]. apply world_new; assumption.
    - (* HDrop *) pose proof (hDropLevel_sim pp (o 0%nat 0%nat) (hwh w) (hv x) (hsc x) n KX) as H. fold (V (hwh w) x) in H. destruct (DropLevel pp (o 0%nat 0%nat) (V (hwh w) x) n) as [v|] eqn:ED; cbn [rbind sim] in *; [|rewrite H; reflexivity].
      destruct H as (h' & -> & K & E & O). cbn [rbind]. eexists. split; [reflexivity|]. apply DropLevel_sc in ED. cbn [V csc] in ED.
      replace (hwcts w) with (upd (hwcts w) a (HC (hv x) (hsc x))) at 1.
      + apply world_upd; [exact S|exact EA|exact K|exact O|]. rewrite E, <- ED. destruct v; reflexivity.
      + clear - EA. revert a EA. induction (hwcts w) as [|z l IH]; intros [|a] EA; cbn in *; try discriminate; [injection EA as ->; destruct x; reflexivity|]. f_equal. apply IH. exact EA.
    - (* HDropNew *) apply (NEW _ _ (hDropLevelNew_sim pp (o 0%nat) (hwh w) x n KX (OO 0%nat))).
    - (* HConst *) pose proof (idx_contents w u b CT) as IB; destruct (idx (hwcts w) b) as [y|]; [destruct IB as [-> EB]|rewrite IB; reflexivity]; cbn [rbind]; destruct (sep_ct w b y SP EB) as [KY DY].
      assert (H : simS (hwh w) (hv y) (hMultByConst pp (o 0%nat 0%nat) (hwh w) x k (hv y)) (MultByConst pp (o 0%nat 0%nat) (V (hwh w) x) k (V (hwh w) y))).
      { destruct (Nat.eq_dec a b) as [->|NE].
        - assert (x = y) by congruence. subst y. apply hMultByConst_same; [exact KX|intros l; apply (OO 0%nat 0%nat)|apply ND; apply (nth_error_In _ _ EA)].
        - apply hMultByConst_sim; [exact KX|exact KY|apply (sep_2 w a b x y SP EA EB NE)]. }
      destruct (MultByConst _ _ _ _ _) as [v|]; cbn [rbind simS] in *; [|rewrite H; reflexivity]. destruct H as (h' & -> & K & E & O). cbn [rbind]. eexists. split; [reflexivity|]. apply world_upd; [exact S|exact EB|exact K|exact O|]. rewrite E. destruct v; reflexivity.
    - (* HRescale *) pose proof (idx_contents w u b CT) as IB; destruct (idx (hwcts w) b) as [y|]; [destruct IB as [-> EB]|rewrite IB; reflexivity]; cbn [rbind]; destruct (sep_ct w b y SP EB) as [KY DY].
      assert (H : simR (hwh w) (hv y) (hRescale pp (o 0%nat 0%nat) (hwh w) x s y) (Rescale pp (o 0%nat 0%nat) (V (hwh w) x) s (if (a =? b)%nat then None else Some (V (hwh w) y)))).
      { destruct (Nat.eqb_spec a b) as [->|NE].
        - assert (x = y) by congruence. subst y. apply hRescale_same. exact KX.
        - apply hRescale_sim; [exact KX|exact KY|apply (sep_2 w a b x y SP EA EB NE)]. }
      destruct (Rescale _ _ _ _ _) as [[v er]|]; cbn [rbind simR] in *; [|rewrite H; reflexivity]. destruct H as (h' & -> & K & E & O). cbn [rbind]. eexists. split; [reflexivity|]. apply world_upd; [exact S|exact EB|exact K|exact O|]. rewrite E. destruct v; reflexivity.
    - (* HRescaleNew *) pose proof (hRescaleNew_sim pp (o 0%nat) (hwh w) x s KX) as H. destruct (RescaleNew _ _ _ _) as [[v er]|]; cbn [rbind] in *; [|rewrite H; reflexivity]. destruct H as (h' & c & -> & K & E & A & NC & O). cbn [rbind]. eexists. split; [reflexivity|]. rewrite EU. apply world_new0; assumption.
    - (* HPt *) pose proof (hMulPtxt_sim pp (o 0%nat) (he_scale e) (hwh w) x (vwev u) pt s KX) as H. assert (EQ : polyQPool (vwev u) = hwpoly w) by (rewrite EV'; reflexivity). rewrite EQ in H. destruct (MulPtxtNew _ _ _ _ _ _ _) as [[st v]|]; cbn [rbind polyQPool] in *.
      + destruct H as (h' & c & X & EP & K & E & A & NC & O). rewrite X. cbn [rbind]. eexists. split; [reflexivity|]. replace st with (EV (ctxtPool (vwev u)) (polyQPool st)) by (rewrite <- EP; destruct st; reflexivity). apply world_new0; assumption.
      + rewrite H. reflexivity.
    - (* HMul *) pose proof (idx_contents w u b CT) as IB; destruct (idx (hwcts w) b) as [y|]; [destruct IB as [-> EB]|rewrite IB; reflexivity]; cbn [rbind]; destruct (sep_ct w b y SP EB) as [KY DY].
      apply (NEW _ _ (hMul_new pp (o 0%nat) (he_crs e) (he_scale e) (hwh w) x y (a =? b)%nat (he_rlk e) KX KY)).
    - (* HMulH *) pose proof (idx_contents w u b CT) as IB; destruct (idx (hwcts w) b) as [y|]; [destruct IB as [-> EB]|rewrite IB; reflexivity]; cbn [rbind]; destruct (sep_ct w b y SP EB) as [KY DY].
      rewrite (rd_hoist _ _ _ _ (V (hwh w) x) (reads_hok _ _ KX)), (rd_hoist _ _ _ _ (V (hwh w) y) (reads_hok _ _ KY)). destruct (HoistedForm pp (o 1%nat) _) as [d0|]; cbn [rbind]; [|reflexivity]. destruct (HoistedForm pp (o 2%nat) _) as [d1|]; cbn [rbind]; [|reflexivity].
      apply (NEW _ _ (hMulH_sim pp (o 0%nat) (he_crs e) (he_scale e) (hwh w) x y (Some d0) (Some d1) (he_rlk e) KX KY)).
    - (* HRot *) apply (NEW _ _ (hRotateNew_sim pp o (he_crs e) (he_rot e) (hwh w) x k KX OO)).
    - (* HRotH *) rewrite (rd_hoist _ _ _ _ (V (hwh w) x) (reads_hok _ _ KX)). destruct (HoistedForm pp (o 1%nat) _) as [d|]; cbn [rbind]; [|reflexivity]. apply (NEW _ _ (hRotateHoistedNew_sim pp o (he_crs e) (he_rot e) (hwh w) x k d KX)).
    - (* HConj *) apply (NEW _ _ (hConjugateNew_sim pp (o 0%nat) (he_crs e) (he_cj e) (hwh w) x KX)).
  Qed.
  Lemma init_same pp : same_world (hinit (N := N) pp) (VW (NewEvaluator pp) nil).
  Proof.
    unfold hinit, NewEvaluator. pose proof (hNew_ok (N := N) (fun l => l) nil is_new (maxLevel pp)) as H. destruct (hNew (N := N) (fun l => l) nil is_new (maxLevel pp)) as [h c]. destruct H as (E & K & _ & _).
    split; [|split; [|split]]; cbn [hwh hwpool hwcts hwpoly vwev vwcts owners map].
    - split; [intros d [<-|[]]; exact K|]. intros [|i] [|j] ci cj Ei Ej NE; [congruence|destruct j; discriminate|destruct i; discriminate|destruct i; discriminate].
    - intros d [].
    - reflexivity.
    - rewrite E. reflexivity.
  Qed.
  Theorem run_sim pp e (o : nat -> nat -> order) : (forall n m, order_ok (o n m)) -> forall prog n w u, (forall i, In i prog -> gooddata i) -> same_world w u ->
    match vrun pp e o n prog u with Panic => hrun pp e o n prog w = Panic | Ok u' => exists w', hrun pp e o n prog w = Ok w' /\ same_world w' u' end.
  Proof.
    intros OO. induction prog as [|i prog IH]; intros n w u G S; cbn [vrun hrun]; [exists w; split; [reflexivity|exact S]|].
    pose proof (call_sim pp e (o n) w u i (OO n) (G i (or_introl eq_refl)) S) as H. destruct (vcall pp e (o n) u i) as [u1|]; cbn [rbind]; [|rewrite H; reflexivity]. destruct H as (w1 & -> & S1). cbn [rbind]. apply IH; [|exact S1]. intros j Hj. apply G. right. exact Hj.
  Qed.
End World.
