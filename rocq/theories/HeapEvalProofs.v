(** The functions on references of HeapEval.v compute what the functions on values compute, and write only what they may. *)
From Verif Require Import Base IdSetModel KeySetModel NumTheory Negacyclic Ntt Word BasisExt Rows RlweModel KeyGenModel Galois CtModel CtSpec CtProofs KeySwitchModel FloatModel CkksFloat CkksModel HeapModel HeapProofs HeapEval.
Open Scope Z_scope.

Section Sim.
  Context {N : nat}.
  Notation R := (R N).
  Notation heap := (heap N).
  Implicit Types (pp : rparams) (h : heap) (c d : hct).
  Definition inr c (r : nat) : Prop := In r (map snd c).
  (** objects outside S are as before; new objects may exist *)
  Definition only (S : nat -> Prop) h h' : Prop := (length h <= length h')%nat /\ forall r, (r < length h)%nat -> ~ S r -> nth r h' dpoly = nth r h dpoly.
  Definition disj c d : Prop := forall r, inr c r -> inr d r -> False.

  Lemma only_refl S h : only S h h. Proof. split; [lia|reflexivity]. Qed.
  Lemma only_trans (S T V : nat -> Prop) h1 h2 h3 : only S h1 h2 -> only T h2 h3 -> (forall r, (r < length h1)%nat -> S r \/ T r -> V r) -> only V h1 h3.
  Proof. intros [A B] [C D] H. split; [lia|]. intros r Hr NV. rewrite D; [apply B|lia|]; [assumption| |]; intros X; apply NV; apply H; tauto. Qed.
  Lemma only_weaken (S T : nat -> Prop) h h' : only S h h' -> (forall r, (r < length h)%nat -> S r -> T r) -> only T h h'.
  Proof. intros [A B] H. split; [exact A|]. intros r Hr NT. apply B; [exact Hr|]. intros X. apply NT. apply H; assumption. Qed.
  Lemma only_view S h h' d : only S h h' -> hok h d -> (forall r, inr d r -> S r -> False) -> view h' d = view h d.
  Proof.
    intros [A B] [_ V] D. unfold view. apply map_ext_in. intros [id r] I. apply (in_map snd) in I. cbn in I. f_equal. apply B; [apply V; exact I|]. intros X. apply (D r I X).
  Qed.
  Lemma only_hok S h h' d : only S h h' -> hok h d -> hok h' d.
  Proof. intros [A _] [ND V]. split; [exact ND|]. intros r Hr. apply V in Hr. lia. Qed.

  (** h is h0 with the objects of c rewritten so that c reads v *)
  Definition U h0 c h (v : ctT N) : Prop := hok h c /\ view h c = v /\ only (inr c) h0 h.
  Definition sim h0 c (hr : res heap) (vr : res (ctT N)) : Prop := match vr with Panic => hr = Panic | Ok v => exists h, hr = Ok h /\ U h0 c h v end.
  Lemma U_init h c : hok h c -> U h c h (view h c).
  Proof. intros K. split; [exact K|]. split; [reflexivity|]. apply only_refl. Qed.
  Lemma U_read h0 c h v id : U h0 c h v -> hread h c id = cget v id.
  Proof. intros (K & V & _). rewrite (hread_view _ _ _ K), V. reflexivity. Qed.
  Lemma U_other h0 c h v d id : U h0 c h v -> hok h0 d -> disj d c -> hread h d id = cget (view h0 d) id.
  Proof. intros (_ & _ & O) K D. rewrite (hread_view _ _ _ (only_hok _ _ _ _ O K)), (only_view _ _ _ _ O K D). reflexivity. Qed.
  Lemma U_keys h0 c h v : U h0 c h v -> keys v = keys c.
  Proof. intros (_ & <- & _). apply keys_view. Qed.
  Lemma U_trans h0 c h1 v1 h2 v2 : U h0 c h1 v1 -> U h1 c h2 v2 -> U h0 c h2 v2.
  Proof. intros (_ & _ & O1) (K & V & O2). split; [exact K|]. split; [exact V|]. apply (only_trans _ _ _ _ _ _ O1 O2). tauto. Qed.
  Lemma sim_write h0 c h v id p q : U h0 c h v -> cget v id = Ok q -> sim h0 c (hwrite h c id p) (Ok (cset v id p)).
  Proof.
    intros UU E. assert (I : In id (keys c)) by (rewrite <- (U_keys _ _ _ _ UU); apply (cget_in _ _ _ E)). destruct UU as (K & V & O).
    destruct (hwrite_ok h c id p K I) as (r & ER & W & VW & K' & LR). exists (upd h r p). split; [exact W|]. split; [exact K'|]. split; [rewrite VW, V; reflexivity|].
    apply (only_trans _ (inr c) _ _ _ _ O); [|tauto]. split; [rewrite upd_len; lia|]. intros x _ NX. apply upd_nth_neq. intros ->. apply NX. apply (mget_ref _ _ _ ER).
  Qed.
  Lemma sim_ok h0 c h v : U h0 c h v -> sim h0 c (Ok h) (Ok v). Proof. intros H. exists h. split; [reflexivity|exact H]. Qed.
  Lemma sim_wr h0 c h v id rows : U h0 c h v -> sim h0 c (hwr h c id rows) (cwr v id rows).
  Proof.
    intros UU. unfold hwr, cwr. rewrite (U_read _ _ _ _ id UU). destruct (cget v id) as [p|] eqn:E; cbn [rbind]; [|reflexivity]. apply (sim_write _ _ _ _ _ _ p UU E).
  Qed.
  Lemma sim_bind h0 c hr vr f g : sim h0 c hr vr -> (forall h v, U h0 c h v -> sim h0 c (f h) (g v)) -> sim h0 c (rbind hr f) (rbind vr g).
  Proof. intros S F. destruct vr as [v|]; cbn [sim rbind] in *; [|rewrite S; reflexivity]. destruct S as (h & -> & UU). cbn [rbind]. apply F. exact UU. Qed.
  Lemma sim_same {X} h0 c (r : res X) f g : (forall x, r = Ok x -> sim h0 c (f x) (g x)) -> sim h0 c (rbind r f) (rbind r g).
  Proof. intros F. destruct r as [x|]; cbn [rbind]; [apply F; reflexivity|reflexivity]. Qed.
  Lemma sim_fold {X} h0 c (f : heap -> X -> res heap) g (l : list X) : forall h v, U h0 c h v ->
    (forall x h v, In x l -> U h0 c h v -> sim h0 c (f h x) (g v x)) -> sim h0 c (rfold f l h) (rfold g l v).
  Proof.
    induction l as [|x l IH]; intros h v UU F; cbn [rfold]; [apply sim_ok; exact UU|].
    apply sim_bind; [apply F; [left; reflexivity|exact UU]|]. intros h1 v1 U1. apply IH; [exact U1|]. intros y h2 v2 I U2. apply F; [right; exact I|exact U2].
  Qed.
  Lemma sim_trans h0 c h v hr vr : U h0 c h v -> sim h c hr vr -> sim h0 c hr vr.
  Proof. intros UU S. destruct vr as [w|]; cbn [sim] in *; [|exact S]. destruct S as (h' & -> & U2). exists h'. split; [reflexivity|]. apply (U_trans _ _ _ _ _ _ UU U2). Qed.
  Lemma hIDSet_eq o h c : hIDSet o c = IDSetOf o (view h c). Proof. unfold hIDSet, IDSetOf. rewrite keys_view. reflexivity. Qed.
  Lemma hIDSet_U o h0 c h v : U h0 c h v -> hIDSet o c = IDSetOf o v. Proof. intros (_ & <- & _). apply hIDSet_eq. Qed.

  (** reads *)
  Definition reads h d (v : ctT N) : Prop := keys d = keys v /\ forall id, hread h d id = cget v id.
  Lemma reads_hok h c : hok h c -> reads h c (view h c).
  Proof. intros K. split; [symmetry; apply keys_view|]. intros id. apply hread_view. exact K. Qed.
  Lemma reads_U h0 c h v : U h0 c h v -> reads h c v.
  Proof. intros UU. split; [symmetry; apply (U_keys _ _ _ _ UU)|]. intros id. apply (U_read _ _ _ _ id UU). Qed.
  Lemma reads_other h0 c h v d : U h0 c h v -> hok h0 d -> disj d c -> reads h d (view h0 d).
  Proof. intros UU K D. split; [symmetry; apply keys_view|]. intros id. apply (U_other _ _ _ _ _ id UU K D). Qed.
  Lemma rd_level h d v : reads h d v -> hLevel h d = ctLevel v. Proof. intros [_ E]. unfold hLevel, ctLevel. rewrite E. reflexivity. Qed.
  Lemma rd_getL h d v id l : reads h d v -> hgetL h d id l = cgetL v id l. Proof. intros [_ E]. unfold hgetL, cgetL. rewrite E. reflexivity. Qed.
  Lemma rd_ids o h d v : reads h d v -> hIDSet o d = IDSetOf o v. Proof. intros [E _]. unfold hIDSet, IDSetOf. rewrite E. reflexivity. Qed.
  Lemma rd_ext pp l m h d v id key : reads h d v -> hExtOp pp l m h d id key = ExtOp pp l m v id key.
  Proof. intros E. unfold hExtOp, ExtOp. destruct m; [reflexivity|]. rewrite (rd_getL _ _ _ _ _ E). reflexivity. Qed.
  Lemma rfold_ext {X Y} (f g : Y -> X -> res Y) l : (forall y x, f y x = g y x) -> forall y, rfold f l y = rfold g l y.
  Proof. intros E. induction l as [|x l IH]; intros y; cbn [rfold]; [reflexivity|]. rewrite E. destruct (g y x); cbn [rbind]; [apply IH|reflexivity]. Qed.
  Lemma rd_vec pp l sel m h d v rs ll : reads h d v -> hgenVec pp l sel m h d rs ll = genVec pp l sel m v rs ll.
  Proof.
    intros E. unfold hgenVec, genVec. f_equal. apply rfold_ext. intros acc id. unfold hhdig, hdig. destruct m; [reflexivity|]. rewrite (rd_getL _ _ _ _ _ E). reflexivity.
  Qed.
  Lemma rd_hoist pp o h d (c : ckct N) : reads h d (cv c) -> hHoistedForm pp o h d = HoistedForm pp o c.
  Proof.
    intros E. unfold hHoistedForm, HoistedForm. rewrite (rd_ids _ _ _ _ E), (rd_level _ _ _ E). destruct (IDSetOf _ _); cbn [rbind]; [|reflexivity]. destruct (ctLevel _); cbn [rbind]; [|reflexivity].
    apply rfold_ext. intros m id. rewrite (rd_getL _ _ _ _ _ E). reflexivity.
  Qed.
  Lemma rd_into pp o rs h d (c : ckct N) ids : reads h d (cv c) -> hhoistInto pp o rs h d ids = hoistInto pp o rs c ids.
  Proof.
    intros E. unfold hhoistInto, hoistInto. rewrite (rd_level _ _ _ E). destruct (ctLevel _); cbn [rbind]; [|reflexivity].
    apply rfold_ext. intros m id. rewrite (rd_getL _ _ _ _ _ E). reflexivity.
  Qed.

  (** *** allocation *)
  Lemma above_disj n c d h : above n c -> hok h d -> (length h <= n)%nat -> disj c d.
  Proof. intros A [_ V] L r H1 H2. apply A in H1. apply V in H2. lia. Qed.
  Lemma alloc_step n h c id p : hok h c -> above n c -> (n <= length h)%nat -> let h' := h ++ [p] in let c' := mset seq_dec c id (length h) in
    hok h' c' /\ above n c' /\ view h' c' = cset (view h c) id p /\ (n <= length h')%nat.
  Proof.
    intros K A L h' c'. assert (NI : ~ In (length h) (map snd c)) by (intros X; apply K in X; lia). split; [|split; [|split]].
    - split; [apply nodup_mset; [apply K|exact NI]|]. intros r Hr. apply refs_mset in Hr. unfold h'. rewrite app_length. cbn. destruct Hr as [->|Hr]; [lia|]. apply K in Hr. lia.
    - intros r Hr. apply refs_mset in Hr. destruct Hr as [->|Hr]; [exact L|apply A; exact Hr].
    - unfold c', h'. rewrite view_mset, (view_app h [p] c K). rewrite app_nth2, Nat.sub_diag by lia. reflexivity.
    - unfold h'. rewrite app_length. lia.
  Qed.
  Lemma only_app S h x : only S h (h ++ x). Proof. split; [rewrite app_length; lia|]. intros r Hr _. apply app_nth1. exact Hr. Qed.
  Definition nowhere (r : nat) : Prop := False.
  Lemma hNew_ok o h ids level : let '(h', c) := hNew o h ids level in view h' c = NewCiphertext o ids level /\ hok h' c /\ above (length h) c /\ only nowhere h h'.
  Proof.
    unfold hNew, NewCiphertext.
    assert (G : forall l h1 c, hok h1 c -> above (length h) c -> only nowhere h h1 ->
      let '(h', d) := fold_left (fun '(h, c) id => (h ++ [zeroP (S level)], mset seq_dec c id (length h))) l (h1, c) in
      view h' d = fold_left (fun v id => cset v id (zeroP (S level))) l (view h1 c) /\ hok h' d /\ above (length h) d /\ only nowhere h h').
    { induction l as [|id l IH]; intros h1 c K A O; cbn [fold_left]; [split; [reflexivity|]; split; [exact K|]; split; [exact A|exact O]|].
      destruct (alloc_step (length h) h1 c id (zeroP (S level)) K A (proj1 O)) as (K1 & A1 & V1 & _). rewrite <- V1. apply IH; [exact K1|exact A1|].
      apply (only_trans _ nowhere _ _ _ _ O (only_app _ _ _)). unfold nowhere. tauto. }
    specialize (G (o (keys ids)) (h ++ [zeroP (S level)]) [(id0, length h)]).
    replace (view (h ++ [zeroP (S level)]) [(id0, length h)]) with (cset (nil : ctT N) id0 (zeroP (S level))) in G by (cbn; rewrite app_nth2, Nat.sub_diag by lia; reflexivity).
    apply G.
    - split; [constructor; [intros []|constructor]|]. intros r [<-|[]]. rewrite app_length. cbn. lia.
    - intros r [<-|[]]. cbn. lia.
    - apply only_app.
  Qed.
  (** ctxtPool grows *)
  Lemma hPad_ok (o : order) h c ids : hok h c ->
    match PadCiphertext o (view h c) ids with
    | Panic => hPad o h c ids = Panic
    | Ok v => exists h' c', hPad o h c ids = Ok (h', c') /\ view h' c' = v /\ hok h' c' /\ only nowhere h h' /\ (forall r, inr c' r -> inr c r \/ (length h <= r)%nat)
    end.
  Proof.
    intros K. unfold PadCiphertext, hPad. rewrite (hread_view _ _ _ K), (hIDSet_eq _ h). destruct (cget (view h c) id0) as [p0|]; cbn [rbind]; [|reflexivity]. destruct (IDSetOf (o 0%nat) (view h c)) as [old|]; cbn [rbind]; [|reflexivity].
    set (z := Pol _ _).
    assert (G : forall l h1 c1, hok h1 c1 -> only nowhere h h1 -> (forall r, inr c1 r -> inr c r \/ (length h <= r)%nat) ->
      exists h' c', fold_left (fun '(h, c) id => if is_has old id then (h, c) else (h ++ [z], mset seq_dec c id (length h))) l (h1, c1) = (h', c') /\
        view h' c' = fold_left (fun v id => if is_has old id then v else cset v id z) l (view h1 c1) /\ hok h' c' /\ only nowhere h h' /\ (forall r, inr c' r -> inr c r \/ (length h <= r)%nat)).
    { induction l as [|id l IH]; intros h1 c1 K1 O1 A1; cbn [fold_left]; [exists h1, c1; repeat (split; [first [reflexivity|assumption]|]); assumption|].
      destruct (is_has old id); [apply IH; assumption|].
      destruct (alloc_step 0 h1 c1 id z K1 ltac:(intros r _; lia) ltac:(lia)) as (K2 & _ & V2 & _). rewrite <- V2. apply IH; [exact K2| |].
      - apply (only_trans _ nowhere _ _ _ _ O1 (only_app _ _ _)). unfold nowhere. tauto.
      - intros r Hr. apply refs_mset in Hr. destruct Hr as [->|Hr]; [right; apply O1|apply A1; exact Hr]. }
    destruct (G (o 1%nat (keys ids)) h c K (only_refl _ _) ltac:(tauto)) as (h' & c' & E & R1 & R2 & R3 & R4). exists h', c'. rewrite E. repeat (split; [first [reflexivity|assumption]|]). assumption.
  Qed.
  Lemma hCopyNew_sim o h c : hok h c -> ord1_ok o ->
    match CopyNew o (view h c) with
    | Panic => hCopyNew o h c = Panic
    | Ok v => exists h' d, hCopyNew o h c = Ok (h', d) /\ view h' d = v /\ hok h' d /\ above (length h) d /\ only nowhere h h'
    end.
  Proof.
    intros K OO. pose proof (hCopyNew_ok o h c K (fun l x => Permutation_in _ (OO l))) as H. destruct (CopyNew o (view h c)); [|exact H].
    destruct H as (h' & d & E & V & K' & A & [F1 F2]). exists h', d. split; [exact E|]. split; [exact V|]. split; [exact K'|]. split; [exact A|]. split; [exact F1|]. intros r Hr _. apply F2. exact Hr.
  Qed.

  (** *** in-place operations *)
  Lemma hCopy_sim o h dst src : hok h dst -> hok h src -> disj src dst -> sim h dst (hCopy o h dst src) (Copy o (view h dst) (view h src)).
  Proof.
    intros KD KS D. unfold hCopy, Copy. rewrite keys_view. apply sim_fold; [apply U_init; exact KD|]. intros id h1 v1 _ U1.
    rewrite (proj2 (reads_U _ _ _ _ U1)), (proj2 (reads_other _ _ _ _ _ U1 KS D)). destruct (cget v1 id) as [q|] eqn:E; cbn [rbind]; [|reflexivity]. apply sim_same. intros p _. apply (sim_write _ _ _ _ _ _ q U1 E).
  Qed.
  Lemma hDropLevel_sim pp o h c s levels : hok h c -> sim h c (hDropLevel pp o h c levels) (d <- DropLevel pp o (CK (view h c) s) levels ;; Ok (cv d)).
  Proof.
    intros K. unfold hDropLevel, DropLevel. cbn [cv csc]. rewrite (rd_level _ _ _ (reads_hok _ _ K)), keys_view. destruct (ctLevel (view h c)) as [level|]; cbn [rbind]; [|reflexivity].
    destruct (S level <? levels)%nat; [reflexivity|].
    assert (G : sim h c (rfold (fun h id => p <- hread h c id ;; p <- cutRows pp (S level - levels) p ;; hwrite h c id p) (o (keys c)) h)
                (rfold (fun v id => p <- cget v id ;; p <- cutRows pp (S level - levels) p ;; Ok (cset v id p)) (o (keys c)) (view h c))).
    { apply sim_fold; [apply U_init; exact K|]. intros id h1 v1 _ U1. rewrite (proj2 (reads_U _ _ _ _ U1)). destruct (cget v1 id) as [q|] eqn:E; cbn [rbind]; [|reflexivity]. apply sim_same. intros p _. apply (sim_write _ _ _ _ _ _ q U1 E). }
    destruct (rfold _ (o (keys c)) (view h c)) as [v|]; cbn [rbind]; exact G.
  Qed.

  (** MultByConst into another ciphertext *)
  Definition simS h0 c (hr : res (heap * f64)) (vr : res (ckct N)) : Prop := match vr with Panic => hr = Panic | Ok v => exists h, hr = Ok (h, csc v) /\ U h0 c h (cv v) end.
  Lemma simS_fin h0 c hr vr s : sim h0 c hr vr -> simS h0 c (h <- hr ;; Ok (h, s)) (v <- vr ;; Ok (CK v s)).
  Proof. intros S. destruct vr as [v|]; cbn [rbind simS sim csc cv] in *; [|rewrite S; reflexivity]. destruct S as (h & -> & UU). exists h. split; [reflexivity|exact UU]. Qed.
  Lemma hMultByConst_sim pp o h (c0 : hck) k out s : hok h (hv c0) -> hok h out -> disj (hv c0) out ->
    simS h out (hMultByConst pp o h c0 k out) (MultByConst pp o (CK (view h (hv c0)) (hsc c0)) k (CK (view h out) s)).
  Proof.
    intros K0 KO D. unfold hMultByConst, MultByConst. cbn [cv csc]. rewrite (rd_level _ _ _ (reads_hok _ _ K0)), (rd_level _ _ _ (reads_hok _ _ KO)), keys_view.
    destruct (ctLevel (view h (hv c0))) as [l0|]; cbn [rbind]; [|reflexivity]. destruct (ctLevel (view h out)) as [lo|]; cbn [rbind]; [|reflexivity].
    destruct (getConstAndScale pp (Nat.min l0 lo) k) as [[cR cI] sc]. destruct (rmapM _ _) as [cs|]; cbn [rbind]; [|reflexivity]. apply simS_fin. apply sim_fold; [apply U_init; exact KO|]. intros id h1 v1 _ U1.
    rewrite (rd_getL _ _ _ _ _ (reads_other _ _ _ _ _ U1 K0 D)), (proj2 (reads_U _ _ _ _ U1)). apply sim_same. intros p0 _. destruct (cget v1 id) as [q|] eqn:E; cbn [rbind]; [|reflexivity]. apply sim_same. intros rows _.
    apply (sim_write _ _ _ _ _ _ q U1 E).
  Qed.
  (** MultByConst in place: every component is read before it is written *)
  Lemma hMultByConst_same pp o h (c0 : hck) k s : hok h (hv c0) -> ord1_ok o -> NoDup (keys (hv c0)) ->
    simS h (hv c0) (hMultByConst pp o h c0 k (hv c0)) (MultByConst pp o (CK (view h (hv c0)) (hsc c0)) k (CK (view h (hv c0)) s)).
  Proof.
    intros K0 OO ND. unfold hMultByConst, MultByConst. cbn [cv csc]. rewrite !(rd_level _ _ _ (reads_hok _ _ K0)), keys_view.
    destruct (ctLevel (view h (hv c0))) as [l0|]; cbn [rbind]; [|reflexivity]. rewrite Nat.min_id.
    destruct (getConstAndScale pp l0 k) as [[cR cI] sc]. destruct (rmapM _ _) as [cs|]; cbn [rbind]; [|reflexivity]. apply simS_fin.
    set (c := hv c0) in *. assert (NDO : NoDup (o (keys c))) by (apply (Permutation_NoDup (Permutation_sym (OO _)) ND)). set (v0 := view h c).
    assert (G : forall l h1 v1, NoDup l -> U h c h1 v1 -> (forall id, In id l -> cget v1 id = cget v0 id) ->
      sim h c (rfold (fun h id => p0 <- hgetL h c id l0 ;; p1 <- hread h c id ;; rows <- wrLvl l0 (tab (S l0) (fun i => halves_row (Qi pp i) (nth i cs (0, 0)) (row (prows p0) i))) (prows p1) ;; hwrite h c id (Pol rows (pntt p1))) l h1)
        (rfold (fun v id => p0 <- cgetL v0 id l0 ;; p1 <- cget v id ;; rows <- wrLvl l0 (tab (S l0) (fun i => halves_row (Qi pp i) (nth i cs (0, 0)) (row (prows p0) i))) (prows p1) ;; Ok (cset v id (Pol rows (pntt p1)))) l v1)).
    { induction l as [|id l IH]; intros h1 v1 NL U1 E1; cbn [rfold]; [apply sim_ok; exact U1|]. inversion NL as [|? ? NI NL']; subst.
      rewrite (rd_getL _ _ _ _ _ (reads_U _ _ _ _ U1)), (proj2 (reads_U _ _ _ _ U1)). unfold cgetL at 1 2. rewrite (E1 id) by (left; reflexivity). destruct (cget v0 id) as [p|] eqn:EP; cbn [rbind]; [|reflexivity].
      destruct (length (prows p) <=? l0)%nat; cbn [rbind]; [reflexivity|]. destruct (wrLvl l0 _ _) as [rows|]; cbn [rbind]; [|reflexivity].
      assert (E1' : cget v1 id = Ok p) by (rewrite E1 by (left; reflexivity); exact EP).
      destruct (sim_write _ _ _ _ id (Pol rows (pntt p)) p U1 E1') as (h2 & X2 & U2). rewrite X2. cbn [rbind]. apply IH; [exact NL'|exact U2|]. intros x Hx. rewrite <- (E1 x) by (right; exact Hx).
      unfold cget, cset. rewrite mget_mset_neq; [reflexivity|]. intros ->. contradiction. }
    apply G; [exact NDO|apply U_init; exact K0|reflexivity].
  Qed.

  (** Rescale *)
  Definition simR h0 c (hr : res (heap * f64 * bool)) (vr : res (ckct N * bool)) : Prop := match vr with Panic => hr = Panic | Ok (v, e) => exists h, hr = Ok (h, csc v, e) /\ U h0 c h (cv v) end.
  Lemma simR_here h c v s e : hok h c -> view h c = v -> simR h c (Ok (h, s, e)) (Ok (CK v s, e)).
  Proof. intros K <-. exists h. split; [reflexivity|]. apply U_init. exact K. Qed.
  Lemma hRescale_sim pp o h (cin : hck) ms (out : hck) : hok h (hv cin) -> hok h (hv out) -> disj (hv cin) (hv out) ->
    simR h (hv out) (hRescale pp o h cin ms out) (Rescale pp o (CK (view h (hv cin)) (hsc cin)) ms (Some (CK (view h (hv out)) (hsc out)))).
  Proof.
    intros KI KO D. unfold hRescale, Rescale. cbn [cv csc]. destruct (f_le ms f_zero); [apply simR_here; [exact KO|reflexivity]|]. destruct (f_eq (hsc cin) f_zero); [apply simR_here; [exact KO|reflexivity]|].
    rewrite (rd_level _ _ _ (reads_hok _ _ KI)), keys_view. destruct (ctLevel (view h (hv cin))) as [level|]; cbn [rbind]; [|reflexivity]. destruct (level =? 0)%nat; [apply simR_here; [exact KO|reflexivity]|].
    destruct (rescLoop _ _ _ _ _ _) as [[sc nb]|]; cbn [rbind]; [|reflexivity]. destruct (0 <? nb)%nat; [|apply simR_here; [exact KO|reflexivity]].
    match goal with |- simR _ _ (rbind ?a _) (rbind ?b _) => assert (G : sim h (hv out) a b) end.
    { apply sim_fold; [apply U_init; exact KO|]. intros id h1 v1 _ U1. rewrite (rd_getL _ _ _ _ _ (reads_other _ _ _ _ _ U1 KI D)), (proj2 (reads_U _ _ _ _ U1)). apply sim_same. intros p _.
      destruct (cget v1 id) as [q|] eqn:E; cbn [rbind]; [|reflexivity]. destruct (_ <? _)%nat; [reflexivity|]. apply (sim_write _ _ _ _ _ _ q U1 E). }
    destruct (rfold _ (o (keys (hv out))) (view h (hv out))) as [v|]; cbn [rbind sim simR cv csc] in *; [|rewrite G; reflexivity]. destruct G as (h1 & -> & U1). exists h1. split; [reflexivity|exact U1].
  Qed.
  Lemma hRescale_same pp o h (c : hck) ms : hok h (hv c) -> simR h (hv c) (hRescale pp o h c ms c) (Rescale pp o (CK (view h (hv c)) (hsc c)) ms None).
  Proof.
    intros KI. unfold hRescale, Rescale. cbn [cv csc]. destruct (f_le ms f_zero); [apply simR_here; [exact KI|reflexivity]|]. destruct (f_eq (hsc c) f_zero); [apply simR_here; [exact KI|reflexivity]|].
    rewrite (rd_level _ _ _ (reads_hok _ _ KI)), keys_view. destruct (ctLevel (view h (hv c))) as [level|]; cbn [rbind]; [|reflexivity]. destruct (level =? 0)%nat; [apply simR_here; [exact KI|reflexivity]|].
    destruct (rescLoop _ _ _ _ _ _) as [[sc nb]|]; cbn [rbind]; [|reflexivity]. destruct (0 <? nb)%nat; [|apply simR_here; [exact KI|reflexivity]].
    match goal with |- simR _ _ (rbind ?a _) (rbind ?b _) => assert (G : sim h (hv c) a b) end.
    { apply sim_fold; [apply U_init; exact KI|]. intros id h1 v1 _ U1. rewrite (rd_getL _ _ _ _ _ (reads_U _ _ _ _ U1)), (proj2 (reads_U _ _ _ _ U1)). apply sim_same. intros p _.
      destruct (cget v1 id) as [q|] eqn:E; cbn [rbind]; [|reflexivity]. destruct (_ <? _)%nat; [reflexivity|]. apply (sim_write _ _ _ _ _ _ q U1 E). }
    destruct (rfold _ (o (keys (hv c))) (view h (hv c))) as [v|]; cbn [rbind sim simR cv csc] in *; [|rewrite G; reflexivity]. destruct G as (h1 & -> & U1). exists h1. split; [reflexivity|exact U1].
  Qed.

  (** *** the KeySwitcher *)
  Ltac rdo U1 K D := rewrite ?(rd_getL _ _ _ _ _ (reads_other _ _ _ _ _ U1 K D)), ?(rd_ext _ _ _ _ _ _ _ _ (reads_other _ _ _ _ _ U1 K D)).
  Lemma hprodStage_sim pp level o h op0 op1 ids0 ids1 out : hok h op0 -> hok h op1 -> hok h out -> disj op0 out -> disj op1 out ->
    sim h out (hprodStage pp level o h op0 op1 ids0 ids1 out) (prodStage pp level o (view h op0) (view h op1) ids0 ids1 (view h out)).
  Proof.
    intros K0 K1 KO D0 D1. unfold hprodStage, prodStage. rewrite (rd_getL _ _ _ _ _ (reads_hok _ _ K0)), (rd_getL _ _ _ _ _ (reads_hok _ _ K1)).
    apply sim_same. intros a0 _. apply sim_same. intros b0 _. apply sim_bind; [apply sim_wr; apply U_init; exact KO|]. intros h1 v1 U1.
    apply sim_bind. { apply sim_fold; [exact U1|]. intros id h2 v2 _ U2. rdo U2 K0 D0. apply sim_same. intros p _. apply sim_wr. exact U2. }
    intros h2 v2 U2. apply sim_bind.
    { apply sim_fold; [exact U2|]. intros id h3 v3 _ U3. rdo U3 K1 D1. apply sim_same. intros p _. destruct (is_has ids0 id); [|apply sim_wr; exact U3]. rewrite (proj2 (reads_U _ _ _ _ U3)). apply sim_same. intros q _. apply sim_wr. exact U3. }
    intros h3 v3 U3. rewrite (U_keys _ _ _ _ U3). apply sim_fold; [exact U3|]. intros id h4 v4 _ U4. rewrite (proj2 (reads_U _ _ _ _ U4)). apply sim_same. intros q _. apply sim_wr. exact U4.
  Qed.
  Lemma hMul_sim pp o crs h op0 op1 (d0 d1 : option (hoisted N)) rs out : hok h op0 -> hok h op1 -> hok h out -> disj op0 out -> disj op1 out ->
    sim h out (hMulAndRelinHoisted pp o crs h op0 op1 d0 d1 rs out) (MulAndRelinHoisted pp o crs (view h op0) (view h op1) d0 d1 rs (view h out)).
  Proof.
    intros K0 K1 KO D0 D1. unfold hMulAndRelinHoisted, MulAndRelinHoisted.
    rewrite (rd_level _ _ _ (reads_hok _ _ KO)), (rd_level _ _ _ (reads_hok _ _ K0)), (rd_ids _ _ _ _ (reads_hok _ _ K0)), (rd_ids _ _ _ _ (reads_hok _ _ K1)).
    apply sim_same. intros level _. apply sim_same. intros l0 _. destruct (l0 <? level)%nat; [reflexivity|]. apply sim_same. intros ids0 _. apply sim_same. intros ids1 _.
    rewrite (rd_vec _ _ _ _ _ _ _ _ _ (reads_hok _ _ K0)), (rd_vec _ _ _ _ _ _ _ _ _ (reads_hok _ _ K1)). apply sim_same. intros x _. apply sim_same. intros y _.
    apply sim_bind; [apply hprodStage_sim; assumption|]. intros h1 v1 U1. apply sim_bind.
    { unfold hxStage, xStage. apply sim_fold; [exact U1|]. intros id h2 v2 _ U2. rdo U2 K1 D1. apply sim_same. intros e _. rewrite (proj2 (reads_U _ _ _ _ U2)). apply sim_same. intros q _. apply sim_wr. exact U2. }
    intros h2 v2 U2. unfold hvStage, vStageH. apply sim_fold; [exact U2|]. intros id h3 v3 _ U3. apply sim_same. intros k _. rdo U3 K0 D0. apply sim_same. intros w _. apply sim_same. intros dw _. apply sim_same. intros ev _.
    rewrite (proj2 (reads_U _ _ _ _ U3)). apply sim_same. intros q0 _. apply sim_bind; [apply sim_wr; exact U3|]. intros h4 v4 U4. apply sim_same. intros u _. apply sim_same. intros eu _. rewrite (proj2 (reads_U _ _ _ _ U4)). apply sim_same. intros q _.
    apply sim_wr. exact U4.
  Qed.
  Lemma hRotate_sim pp o crs (d : option (hoisted N)) h cin k rk out : hok h cin -> hok h out -> disj cin out ->
    sim h out (hRotateGen pp o crs d h cin k rk out) (RotateGen pp o crs d (view h cin) k rk (view h out)).
  Proof.
    intros KI KO D. unfold hRotateGen, RotateGen. rewrite (rd_level _ _ _ (reads_hok _ _ KO)), (rd_ids _ _ _ _ (reads_hok _ _ KI)), (rd_level _ _ _ (reads_hok _ _ KI)), keys_view.
    apply sim_same. intros level _. apply sim_same. intros ids _. apply sim_same. intros lin _. destruct (lin <? level)%nat; [reflexivity|]. apply sim_same. intros kk _.
    rewrite (proj2 (reads_hok _ _ KI)), (proj2 (reads_hok _ _ KO)). apply sim_same. intros p0 _. destruct (cget (view h out) id0) as [q0|] eqn:E0; cbn [rbind]; [|reflexivity].
    destruct (sim_write _ _ _ _ id0 (polyCopy q0 p0) q0 (U_init _ _ KO) E0) as (h1 & X1 & U1). rewrite X1. cbn [rbind]. apply sim_bind.
    { apply sim_fold; [exact U1|]. intros id h2 v2 _ U2. apply sim_same. intros key _. rdo U2 KI D. apply sim_same. intros e _. rewrite (proj2 (reads_U _ _ _ _ U2)). apply sim_same. intros q _. apply sim_bind; [apply sim_wr; exact U2|].
      intros h3 v3 U3. apply sim_same. intros a _. rdo U3 KI D. apply sim_same. intros ea _. apply sim_wr. exact U3. }
    intros h2 v2 U2. apply sim_fold; [exact U2|]. intros id h3 v3 _ U3. rewrite (proj2 (reads_U _ _ _ _ U3)). destruct (cget v3 id) as [q|] eqn:E; cbn [rbind]; [|reflexivity]. apply (sim_write _ _ _ _ _ _ q U3 E).
  Qed.
  Lemma hConj_sim pp o crs h cin ck out : hok h cin -> hok h out -> disj cin out ->
    sim h out (hConjugate pp o crs h cin ck out) (Conjugate pp o crs (view h cin) ck (view h out)).
  Proof.
    intros KI KO D. unfold hConjugate, Conjugate. rewrite (rd_level _ _ _ (reads_hok _ _ KO)), (rd_ids _ _ _ _ (reads_hok _ _ KI)), (rd_level _ _ _ (reads_hok _ _ KI)), keys_view.
    apply sim_same. intros level _. apply sim_same. intros ids _. apply sim_same. intros lin _. destruct (lin <? level)%nat; [reflexivity|]. apply sim_bind.
    { apply sim_fold; [apply U_init; exact KO|]. intros id h1 v1 _ U1. rdo U1 KI D. rewrite (rd_getL _ _ _ _ _ (reads_U _ _ _ _ U1)). apply sim_same. intros p _. apply sim_same. intros q _. apply sim_wr. exact U1. }
    intros h1 v1 U1. apply sim_bind.
    { apply sim_fold; [exact U1|]. intros id h2 v2 _ U2. apply sim_same. intros key _. rewrite (rd_ext _ _ _ _ _ _ _ _ (reads_U _ _ _ _ U2)), (proj2 (reads_U _ _ _ _ U2)). apply sim_same. intros e _. apply sim_same. intros q _. apply sim_wr. exact U2. }
    intros h2 v2 U2. apply sim_fold; [exact U2|]. intros id h3 v3 _ U3. apply sim_same. intros a _. rewrite (rd_ext _ _ _ _ _ _ _ _ (reads_U _ _ _ _ U3)), (proj2 (reads_U _ _ _ _ U3)). apply sim_same. intros e _.
    destruct (cget v3 id) as [q|] eqn:E; cbn [rbind]; [|reflexivity]. apply (sim_write _ _ _ _ _ _ q U3 E).
  Qed.
End Sim.
