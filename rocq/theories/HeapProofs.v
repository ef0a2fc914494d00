(** The heap functions compute what the functions on values compute, and touch only what they may. *)
From Verif Require Import Base IdSetModel NumTheory Negacyclic Ntt Word BasisExt Rows RlweModel KeyGenModel CtModel CtSpec CtProofs HeapModel.
Open Scope Z_scope.

Section H.
  Context {N : nat}.
  Notation heap := (heap N).
  Implicit Types (h : heap) (c d : hct) (p : poly N).

  (** all references valid and pairwise different *)
  Definition hok h c : Prop := NoDup (map snd c) /\ forall r, In r (map snd c) -> (r < length h)%nat.

  Lemma keys_view h c : keys (view h c) = keys c.
  Proof. unfold keys, view. rewrite map_map. apply map_ext. intros [a b]. reflexivity. Qed.
  Lemma mget_view h c id : mget seq_dec (view h c) id = option_map (fun r => nth r h dpoly) (mget seq_dec c id).
  Proof. induction c as [|[k r] c IH]; cbn; [reflexivity|]. destruct (seq_dec id k); [reflexivity|apply IH]. Qed.
  Lemma mget_ref c id r : mget seq_dec c id = Some r -> In r (map snd c).
  Proof. intros H. apply In_mget in H. apply (in_map snd) in H. exact H. Qed.
  Lemma hload_ok h r : (r < length h)%nat -> hload h r = Ok (nth r h dpoly).
  Proof. intros H. unfold hload. rewrite (nth_error_nth' h dpoly H). reflexivity. Qed.
  Lemma hread_view h c id : hok h c -> hread h c id = cget (view h c) id.
  Proof.
    intros [_ V]. unfold hread, href, cget. rewrite mget_view. destruct (mget seq_dec c id) as [r|] eqn:E; cbn; [|reflexivity].
    apply hload_ok. apply V. apply (mget_ref _ _ _ E).
  Qed.
  Lemma upd_len {A} (l : list A) i x : length (upd l i x) = length l.
  Proof. revert i. induction l as [|y l IH]; intros [|i]; cbn; congruence. Qed.
  Lemma upd_nth_eq {A} (l : list A) i x (dd : A) : (i < length l)%nat -> nth i (upd l i x) dd = x.
  Proof. revert i. induction l as [|y l IH]; intros [|i] H; cbn in *; try lia; [reflexivity|]. apply IH. lia. Qed.
  Lemma upd_nth_neq {A} (l : list A) i x j (dd : A) : j <> i -> nth j (upd l i x) dd = nth j l dd.
  Proof. revert i j. induction l as [|y l IH]; intros [|i] [|j] H; cbn; try congruence; try reflexivity. apply IH. lia. Qed.

  Lemma view_upd_out h c r p : ~ In r (map snd c) -> view (upd h r p) c = view h c.
  Proof.
    intros H. unfold view. apply map_ext_in. intros [id q] I. f_equal. apply upd_nth_neq. intros ->. apply H. apply (in_map snd) in I. exact I.
  Qed.
  (** a write through ct.Value[id] is a write of the map entry *)
  Lemma view_write h c id r p : hok h c -> mget seq_dec c id = Some r -> view (upd h r p) c = cset (view h c) id p.
  Proof.
    intros [ND V] E. unfold cset. revert E ND V. induction c as [|[k q] c IH]; cbn [mget]; intros E ND V; [discriminate|].
    cbn [map snd] in ND, V. inversion ND as [|? ? NI ND']; subst. cbn [view map]. fold (view (upd h r p) c). fold (view h c). cbn [mset].
    destruct (seq_dec id k) as [->|n].
    - injection E as ->. rewrite upd_nth_eq by (apply V; left; reflexivity). f_equal. apply view_upd_out. assumption.
    - rewrite upd_nth_neq.
      + f_equal. apply IH; trivial. intros x Hx. apply V. right. assumption.
      + intros ->. apply NI. apply (mget_ref _ _ _ E).
  Qed.
  Lemma hwrite_ok h c id p : hok h c -> In id (keys c) ->
    exists r, mget seq_dec c id = Some r /\ hwrite h c id p = Ok (upd h r p) /\ view (upd h r p) c = cset (view h c) id p /\ hok (upd h r p) c /\ (r < length h)%nat.
  Proof.
    intros K I. apply (mget_In_keys seq_dec) in I. destruct (mget seq_dec c id) as [r|] eqn:E; [|congruence]. exists r. split; [reflexivity|].
    pose proof (proj2 K r (mget_ref _ _ _ E)) as LR. unfold hwrite, href. rewrite E. cbn [rbind]. rewrite hload_ok by assumption. cbn [rbind].
    split; [reflexivity|]. split; [apply view_write; assumption|]. split; [|assumption]. split; [apply K|]. intros x. rewrite upd_len. apply K.
  Qed.

  Lemma view_app h x c : hok h c -> view (h ++ x) c = view h c.
  Proof.
    intros [_ V]. unfold view. apply map_ext_in. intros [id q] I. f_equal. apply app_nth1. apply V. apply (in_map snd) in I. exact I.
  Qed.
  Lemma hok_app h x c : hok h c -> hok (h ++ x) c.
  Proof. intros [A V]. split; [assumption|]. intros r Hr. rewrite app_length. specialize (V r Hr). lia. Qed.
  Lemma refs_mset c id r x : In x (map snd (mset seq_dec c id r)) -> x = r \/ In x (map snd c).
  Proof.
    induction c as [|[k q] c IH]; cbn; [intuition congruence|]. destruct (seq_dec id k); cbn; [intuition congruence|]. intros [A|A]; [tauto|]. apply IH in A. tauto.
  Qed.
  Lemma nodup_mset c id r : NoDup (map snd c) -> ~ In r (map snd c) -> NoDup (map snd (mset seq_dec c id r)).
  Proof.
    induction c as [|[k q] c IH]; cbn; intros ND NI; [constructor; [intros []|constructor]|]. inversion ND; subst.
    destruct (seq_dec id k); cbn.
    - constructor; [tauto|assumption].
    - constructor; [|apply IH; tauto]. intros X. apply refs_mset in X. destruct X as [->|X]; tauto.
  Qed.
  Lemma view_mset h c id r : view h (mset seq_dec c id r) = cset (view h c) id (nth r h dpoly).
  Proof. unfold cset. induction c as [|[k q] c IH]; cbn; [reflexivity|]. destruct (seq_dec id k); cbn; [reflexivity|]. f_equal. exact IH. Qed.
  Lemma view_mdel h c id : view h (mdel seq_dec c id) = mdel seq_dec (view h c) id.
  Proof. induction c as [|[k q] c IH]; cbn; [reflexivity|]. destruct (seq_dec id k); cbn; [exact IH|]. f_equal. exact IH. Qed.
  Lemma refs_mdel c id x : In x (map snd (mdel seq_dec c id)) -> In x (map snd c).
  Proof. induction c as [|[k q] c IH]; cbn; [tauto|]. destruct (seq_dec id k); cbn; [tauto|]. intros [A|A]; [tauto|]. right. apply IH. assumption. Qed.
  Lemma nodup_mdel c id : NoDup (map snd c) -> NoDup (map snd (mdel seq_dec c id)).
  Proof.
    induction c as [|[k q] c IH]; cbn; intros ND; [constructor|]. inversion ND; subst. destruct (seq_dec id k); cbn; [apply IH; assumption|].
    constructor; [|apply IH; assumption]. intros X. apply refs_mdel in X. contradiction.
  Qed.

  (** [frame h h' n]: the first n objects are as before *)
  Definition frame n h h' : Prop := (length h <= length h')%nat /\ forall r, (r < n)%nat -> nth r h' dpoly = nth r h dpoly.
  (** all references of c are at least n *)
  Definition above n c : Prop := forall r, In r (map snd c) -> (n <= r)%nat.

  Lemma hCopyNew_ok o h c : hok h c -> (forall l x, In x (o l) -> In x l) ->
    match CopyNew o (view h c) with
    | Panic => hCopyNew o h c = Panic
    | Ok v => exists h' d, hCopyNew o h c = Ok (h', d) /\ view h' d = v /\ hok h' d /\ above (length h) d /\ frame (length h) h h'
    end.
  Proof.
    intros K OI. unfold CopyNew, hCopyNew. rewrite (hread_view _ _ _ K), keys_view. destruct (cget (view h c) id0) as [p0|] eqn:E0; cbn [rbind]; [|reflexivity].
    assert (G : forall l h1 d, (forall x, In x l -> In x (keys c)) -> hok h1 d -> above (length h) d -> frame (length h) h h1 ->
      match rfold (fun (v : ctT N) id => p <- cget (view h c) id ;; Ok (cset v id p)) l (view h1 d) with
      | Panic => rfold (fun '(h, d) id => p <- hread h c id ;; Ok (h ++ [p], mset seq_dec d id (length h))) l (h1, d) = Panic
      | Ok v => exists h' d', rfold (fun '(h, d) id => p <- hread h c id ;; Ok (h ++ [p], mset seq_dec d id (length h))) l (h1, d) = Ok (h', d') /\
          view h' d' = v /\ hok h' d' /\ above (length h) d' /\ frame (length h) h h'
      end).
    { induction l as [|id l IH]; intros h1 d HI K1 AB FR; cbn [rfold].
      - exists h1, d. repeat (split; [first [reflexivity|assumption]|]). assumption.
      - assert (K1c : hok h1 c) by (split; [apply K|intros r Hr; destruct FR as [F1 F2]; apply K in Hr; lia]).
        assert (VC : view h1 c = view h c).
        { unfold view. apply map_ext_in. intros [x r] I. f_equal. apply FR. apply K. apply (in_map snd) in I. exact I. }
        rewrite (hread_view _ _ _ K1c), VC. destruct (cget (view h c) id) as [p|] eqn:Ep; cbn [rbind]; [|reflexivity].
        assert (NI : ~ In (length h1) (map snd d)) by (intros X; apply K1 in X; lia).
        specialize (IH (h1 ++ [p]) (mset seq_dec d id (length h1))).
        replace (view (h1 ++ [p]) (mset seq_dec d id (length h1))) with (cset (view h1 d) id p) in IH.
        2:{ rewrite view_mset, (view_app h1 [p] d K1). rewrite app_nth2, Nat.sub_diag by lia. reflexivity. }
        apply IH.
        + intros x Hx. apply HI. right. assumption.
        + split; [apply nodup_mset; [apply K1|assumption]|]. intros r Hr. apply refs_mset in Hr. rewrite app_length. cbn. destruct Hr as [->|Hr]; [lia|]. apply K1 in Hr. lia.
        + intros r Hr. apply refs_mset in Hr. destruct Hr as [->|Hr]; [apply FR|apply AB; assumption].
        + destruct FR as [F1 F2]. split; [rewrite app_length; lia|]. intros r Hr. rewrite app_nth1 by lia. apply F2. assumption. }
    specialize (G (o (keys c)) (h ++ [p0]) [(id0, length h)]).
    replace (view (h ++ [p0]) [(id0, length h)]) with (cset (nil : ctT N) id0 p0) in G.
    2:{ cbn. rewrite app_nth2, Nat.sub_diag by lia. reflexivity. }
    apply G.
    - intros x. apply OI.
    - split; [constructor; [intros []|constructor]|]. intros r [<-|[]]. rewrite app_length. cbn. lia.
    - intros r [<-|[]]. cbn. lia.
    - split; [rewrite app_length; lia|]. intros r Hr. apply app_nth1. assumption.
  Qed.

  (** writes through a ciphertext whose references are all at least n *)
  Lemma hwrite_frame n h c id p : hok h c -> above n c -> In id (keys c) ->
    exists h', hwrite h c id p = Ok h' /\ view h' c = cset (view h c) id p /\ hok h' c /\ frame n h h'.
  Proof.
    intros K A I. destruct (hwrite_ok h c id p K I) as (r & E & W & V & K' & _). exists (upd h r p). split; [exact W|]. split; [exact V|]. split; [exact K'|].
    split; [rewrite upd_len; lia|]. intros x Hx. apply upd_nth_neq. intros ->. apply mget_ref in E. apply A in E. lia.
  Qed.
  Lemma frame_refl n h : frame n h h. Proof. split; [lia|reflexivity]. Qed.
  Lemma frame_trans n h1 h2 h3 : frame n h1 h2 -> frame n h2 h3 -> frame n h1 h3.
  Proof. intros [A B] [C D]. split; [lia|]. intros r Hr. rewrite D, B by assumption. reflexivity. Qed.

  Lemma cget_in (v : ctT N) id p : cget v id = Ok p -> In id (keys v).
  Proof. unfold cget. destruct (mget seq_dec v id) eqn:E; [|discriminate]. intros _. apply (mget_In_keys seq_dec). congruence. Qed.

  Lemma hPartialDecrypt_ok pp n h c (sk : secretKey N) : hok h c -> above n c ->
    match PartialDecrypt pp (view h c) sk with
    | Panic => hPartialDecrypt pp h c sk = Panic
    | Ok v => exists h' c', hPartialDecrypt pp h c sk = Ok (h', c') /\ view h' c' = v /\ hok h' c' /\ above n c' /\ frame n h h'
    end.
  Proof.
    intros K A. unfold PartialDecrypt, hPartialDecrypt, ctLevel. set (id := sk_id sk).
    rewrite (hread_view _ _ _ K). destruct (cget (view h c) id0) as [p0|] eqn:E0; cbn [rbind]; [|reflexivity].
    rewrite (hread_view _ _ _ K). destruct (cget (view h c) id) as [p|] eqn:E1; cbn [rbind]; [|reflexivity].
    assert (I : In id (keys c)) by (rewrite <- (keys_view h); apply (cget_in _ _ _ E1)).
    assert (I0 : In id0 (keys c)) by (rewrite <- (keys_view h); apply (cget_in _ _ _ E0)).
    assert (CND : forall h q, hok h c -> frame n h h -> exists h', (if negb (pntt p) then hwrite h c id q else Ok h) = Ok h' /\
       view h' c = (if negb (pntt p) then cset (view h c) id q else view h c) /\ hok h' c /\ frame n h h').
    { intros g q Kg _. destruct (negb (pntt p)); [apply hwrite_frame; assumption|]. exists g. split; [reflexivity|]. split; [reflexivity|]. split; [assumption|apply frame_refl]. }
    destruct (CND h (Pol (lvlQ1 pp (plevel p0) ntt (prows p)) (pntt p)) K (frame_refl _ _)) as (h1 & X1 & V1 & K1 & F1). rewrite X1. cbn [rbind].
    rewrite (hread_view _ _ _ K1), V1.
    set (v1 := if negb (pntt p) then _ else _).
    assert (E2 : exists p2, cget v1 id = Ok p2 /\ pntt p2 = pntt p).
    { unfold v1. destruct (negb (pntt p)); [|exists p; split; [assumption|reflexivity]]. eexists. split; [unfold cget, cset; rewrite mget_mset_eq; reflexivity|reflexivity]. }
    destruct E2 as (p2 & E2 & FP2). rewrite E2. cbn [rbind].
    destruct (hwrite_frame n h1 c id (Pol (lvlQ2 pp (plevel p0) r_mont (prows p2) (qpQ (sk_val sk))) (pntt p2)) K1 A I) as (h2 & X2 & V2 & K2 & F2). rewrite X2. cbn [rbind].
    rewrite (hread_view _ _ _ K2), V2, V1. fold v1.
    assert (E3 : forall q, cget (cset v1 id q) id = Ok q) by (intros; unfold cget, cset; rewrite mget_mset_eq; reflexivity).
    rewrite E3. cbn [rbind pntt prows]. rewrite FP2.
    match goal with |- context [if negb (pntt p) then hwrite h2 c id ?q else _] => destruct (CND h2 q K2 (frame_refl _ _)) as (h3 & X3 & V3 & K3 & F3) end.
    rewrite X3. cbn [rbind]. rewrite !(hread_view _ _ _ K3). rewrite V3, V2, V1. fold v1. rewrite FP2.
    set (v3 := if negb (pntt p) then _ else _).
    destruct (cget v3 id0) as [q0|] eqn:E4; cbn [rbind]; [|reflexivity]. destruct (cget v3 id) as [q1|] eqn:E5; cbn [rbind]; [|reflexivity].
    destruct (hwrite_frame n h3 c id0 (Pol (lvlQ2 pp (plevel p0) r_add (prows q0) (prows q1)) (pntt q0)) K3 A I0) as (h4 & X4 & V4 & K4 & F4). rewrite X4. cbn [rbind].
    exists h4, (mdel seq_dec c id). split; [reflexivity|]. split; [rewrite view_mdel, V4, V3, V2, V1; fold v1; rewrite FP2; reflexivity|].
    split; [split; [apply nodup_mdel; apply K4|intros r Hr; apply refs_mdel in Hr; apply K4; assumption]|].
    split; [intros r Hr; apply refs_mdel in Hr; apply A; assumption|].
    repeat (eapply frame_trans; [eassumption|]). apply frame_refl.
  Qed.

  Theorem hDecrypt_ok pp (o : order) h c (sks : gomap string (secretKey N)) pt : hok h c -> (pt < length h)%nat -> ~ In pt (map snd c) ->
    (forall n l x, In x (o n l) -> In x l) ->
    match Decrypt pp o (view h c) sks (nth pt h dpoly) with
    | Panic => hDecrypt pp o h c sks pt = Panic
    | Ok p => exists h', hDecrypt pp o h c sks pt = Ok h' /\ nth pt h' dpoly = p /\ (length h <= length h')%nat /\
        forall r, (r < length h)%nat -> r <> pt -> nth r h' dpoly = nth r h dpoly
    end.
  Proof.
    intros K HP NI OI. unfold Decrypt, hDecrypt, ctLevel. rewrite (hread_view _ _ _ K).
    destruct (cget (view h c) id0) as [p0|] eqn:E0; cbn [rbind]; [|reflexivity]. rewrite hload_ok by assumption. cbn [rbind].
    set (lv := Nat.min (plevel p0) (plevel (nth pt h dpoly))).
    set (h0 := upd h pt _).
    assert (K0 : hok h0 c) by (split; [apply K|]; intros r Hr; unfold h0; rewrite upd_len; apply K; assumption).
    assert (V0 : view h0 c = view h c) by (apply view_upd_out; assumption).
    assert (L0 : length h0 = length h) by apply upd_len.
    pose proof (hCopyNew_ok (o 0%nat) h0 c K0 (OI 0%nat)) as CN. rewrite V0 in CN. destruct (CopyNew (o 0%nat) (view h c)) as [v|]; [|rewrite CN; reflexivity].
    destruct CN as (h1 & d & X1 & V1 & K1 & A1 & F1). rewrite X1. cbn [rbind]. rewrite V1.
    destruct (IDSetOf (o 1%nat) v) as [ids|]; cbn [rbind]; [|reflexivity].
    assert (G : forall l h1 d, hok h1 d -> above (length h0) d -> frame (length h0) h0 h1 ->
      match decLoop pp ids sks l (view h1 d) with
      | Panic => rfold (fun '(h, d) id => match mget seq_dec sks id with None => Ok (h, d)
                       | Some sk => if is_has ids (sk_id sk) then hPartialDecrypt pp h d sk else Ok (h, d) end) l (h1, d) = Panic
      | Ok v => exists h' d', rfold (fun '(h, d) id => match mget seq_dec sks id with None => Ok (h, d)
                       | Some sk => if is_has ids (sk_id sk) then hPartialDecrypt pp h d sk else Ok (h, d) end) l (h1, d) = Ok (h', d') /\
           view h' d' = v /\ hok h' d' /\ above (length h0) d' /\ frame (length h0) h0 h'
      end).
    { clear. induction l as [|id l IH]; intros h1 d K A F; unfold decLoop; cbn [rfold].
      - exists h1, d. repeat (split; [first [reflexivity|assumption]|]). assumption.
      - destruct (mget seq_dec sks id) as [sk|]; [|apply IH; assumption]. destruct (is_has ids (sk_id sk)); [|apply IH; assumption].
        pose proof (hPartialDecrypt_ok pp (length h0) h1 d sk K A) as P. destruct (PartialDecrypt pp (view h1 d) sk) as [v|]; cbn [rbind]; [|rewrite P; reflexivity].
        destruct P as (h2 & d2 & X & V & K2 & A2 & F2). rewrite X. cbn [rbind]. rewrite <- V. apply IH; trivial. eapply frame_trans; eassumption. }
    specialize (G (o 2%nat (keys sks)) h1 d K1 A1 F1). rewrite V1 in G. destruct (decLoop pp ids sks (o 2%nat (keys sks)) v) as [w|]; cbn [rbind]; [|rewrite G; reflexivity].
    destruct G as (h2 & d2 & X2 & V2 & K2 & A2 & F2). rewrite X2. cbn [rbind].
    assert (LL : length w = length d2) by (rewrite <- V2; apply map_length). rewrite LL. destruct (1 <? length d2)%nat; [reflexivity|].
    rewrite (hread_view _ _ _ K2), V2. destruct (cget w id0) as [q|]; cbn [rbind]; [|reflexivity].
    assert (LP : (pt < length h2)%nat) by (destruct F2; lia). rewrite hload_ok by assumption. cbn [rbind].
    assert (PT : nth pt h2 dpoly = Pol (firstn (S lv) (prows (nth pt h dpoly))) (pntt (nth pt h dpoly))).
    { destruct F2 as [_ F2]. rewrite F2 by lia. unfold h0. apply upd_nth_eq. assumption. }
    rewrite PT. cbn [pntt]. eexists. split; [reflexivity|]. split; [apply upd_nth_eq; assumption|]. split; [rewrite upd_len; destruct F2; lia|].
    intros r Hr NE. rewrite upd_nth_neq by assumption. destruct F2 as [_ F2]. rewrite F2 by lia. unfold h0. apply upd_nth_neq. assumption.
  Qed.
End H.
