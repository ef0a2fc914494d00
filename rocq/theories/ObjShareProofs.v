(** Proofs about concurrent calls on Encryptors and Decryptors (ObjShare.v). *)
From Flocq Require Import Core BinarySingleNaN.
From Verif Require Import Base IdSetModel KeySetModel NumTheory Negacyclic Ntt Word FloatModel CkksFloat BasisExt Rows RlweModel KeyGenModel Galois CtModel CtSpec CtProofs EncDecProofs EncMsgModel KeySwitchModel CkksModel BfvModel KsPool KsPoolProofs GenPool EncPoolProofs DecryptorModel ShareModel PropsShare ObjShare.
Open Scope Z_scope.

Section Run.
  Context {N : nat} (pp : rparams) (om : nat -> nat -> list (R N)).
  Notation R := (R N). Notation ct := (ctT N). Notation gthread := (gthread N). Notation obj := (obj N).
  Notation gexec := (gexec pp om). Notation gsched := (gsched pp om).

  (** *** schedules *)
  Fixpoint gsolo (m : nat) (tx : gthread * obj) : gthread * obj := match m with O => tx | S m => gsolo m (gexec (fst tx) (snd tx)) end.
  Lemma gsolo_add m k tx : gsolo (m + k) tx = gsolo k (gsolo m tx).
  Proof. revert tx. induction m as [|m IH]; intros tx; cbn; [reflexivity|apply IH]. Qed.
  Lemma gexec_end t x : gOut t <> None -> gexec t x = (t, x).
  Proof. intros H. unfold ObjShare.gexec. destruct (gOut t); [reflexivity|congruence]. Qed.
  Lemma gsolo_end m t x : gOut t <> None -> gsolo m (t, x) = (t, x).
  Proof. induction m as [|m IH]; intros H; cbn [gsolo fst snd]; [reflexivity|]. rewrite gexec_end by exact H. apply IH. exact H. Qed.
  Lemma gsched_app s1 s2 ts xs : gsched (s1 ++ s2) ts xs = gsched s2 (fst (gsched s1 ts xs)) (snd (gsched s1 ts xs)).
  Proof.
    revert ts xs. induction s1 as [|i s1 IH]; intros ts xs; cbn; [reflexivity|]. destruct (nth_error ts i) as [t|]; [|apply IH]. destruct (nth_error xs (gObj t)) as [k|]; [|apply IH]. destruct (gexec t k). apply IH.
  Qed.
  Lemma gsched_other sch i : ~ In i sch -> forall ts xs, nth_error (fst (gsched sch ts xs)) i = nth_error ts i.
  Proof.
    induction sch as [|j sch IH]; intros NI ts xs; cbn [ObjShare.gsched]; [reflexivity|]. cbn in NI. destruct (nth_error ts j) as [t|]; [|apply IH; tauto]. destruct (nth_error xs (gObj t)) as [k|]; [|apply IH; tauto].
    destruct (gexec t k) as [t' k']. rewrite IH by tauto. rewrite nth_set. destruct (Nat.eqb_spec j i); [tauto|reflexivity].
  Qed.
  Lemma gexec_obj t x : gObj (fst (gexec t x)) = gObj t.
  Proof. unfold ObjShare.gexec. destruct (gOut t); [reflexivity|]. destruct (step _ _ _ _) as [[l c] y|a y|y]; reflexivity. Qed.
  Lemma gexec_call t x : gCall (fst (gexec t x)) = gCall t /\ gOrd (fst (gexec t x)) = gOrd t.
  Proof. unfold ObjShare.gexec. destruct (gOut t); [split; reflexivity|]. destruct (step _ _ _ _) as [[l c] y|a y|y]; split; reflexivity. Qed.
  Lemma gsched_ended sch i : forall ts xs t, nth_error ts i = Some t -> gOut t <> None -> nth_error (fst (gsched sch ts xs)) i = Some t.
  Proof.
    induction sch as [|j sch IH]; intros ts xs t E H; cbn [ObjShare.gsched]; [exact E|]. destruct (nth_error ts j) as [u|] eqn:Ej; [|apply IH; assumption]. destruct (nth_error xs (gObj u)) as [k|]; [|apply IH; assumption].
    destruct (gexec u k) as [u' k'] eqn:EX. apply IH; [|exact H]. rewrite nth_set. destruct (Nat.eqb_spec j i) as [->|]; [|exact E]. rewrite Ej. rewrite E in Ej. injection Ej as <-. rewrite gexec_end in EX by exact H. injection EX as <- <-. reflexivity.
  Qed.
  Lemma gsched_obj sch : forall ts xs j, option_map gObj (nth_error (fst (gsched sch ts xs)) j) = option_map gObj (nth_error ts j).
  Proof.
    induction sch as [|i sch IH]; intros ts xs j; cbn [ObjShare.gsched]; [reflexivity|]. destruct (nth_error ts i) as [t|] eqn:Et; [|apply IH]. destruct (nth_error xs (gObj t)) as [k|]; [|apply IH].
    pose proof (gexec_obj t k) as ES. destruct (gexec t k) as [t' k']. cbn [fst] in ES. rewrite IH, nth_set. destruct (Nat.eqb_spec i j) as [->|]; [rewrite Et; cbn; congruence|reflexivity].
  Qed.
  Lemma gsched_len sch : forall ts xs, length (snd (gsched sch ts xs)) = length xs.
  Proof.
    induction sch as [|i sch IH]; intros ts xs; cbn [ObjShare.gsched]; [reflexivity|]. destruct (nth_error ts i) as [t|]; [|apply IH]. destruct (nth_error xs (gObj t)) as [k|]; [|apply IH].
    destruct (gexec t k) as [t' k']. rewrite IH. generalize (gObj t) as m. clear. induction xs as [|y xs IH]; intros [|m]; cbn; [reflexivity..|]. rewrite IH. reflexivity.
  Qed.
  (** a goroutine that is alone on its object while [sch] runs *)
  Lemma gsched_excl sch i : forall ts xs t x, nth_error ts i = Some t -> nth_error xs (gObj t) = Some x ->
    (forall j tj, In j sch -> nth_error ts j = Some tj -> j = i \/ gObj tj <> gObj t) ->
    nth_error (fst (gsched sch ts xs)) i = Some (fst (gsolo (count_occ Nat.eq_dec sch i) (t, x))) /\ nth_error (snd (gsched sch ts xs)) (gObj t) = Some (snd (gsolo (count_occ Nat.eq_dec sch i) (t, x))).
  Proof.
    induction sch as [|j sch IH]; intros ts xs t x Et Ek H; cbn [ObjShare.gsched count_occ]; [split; assumption|].
    destruct (Nat.eq_dec j i) as [->|NE].
    - rewrite Et, Ek. cbn [gsolo fst snd]. pose proof (gexec_obj t x) as ES. destruct (gexec t x) as [t' k'] eqn:EX. cbn [fst] in ES. rewrite <- ES. apply IH.
      + rewrite nth_set, Nat.eqb_refl, Et. reflexivity.
      + rewrite ES, nth_set, Nat.eqb_refl, Ek. reflexivity.
      + intros j tj Hj. rewrite nth_set. destruct (Nat.eqb_spec i j) as [->|NE]; [auto|]. intros Etj. rewrite ES. apply (H j tj (or_intror Hj) Etj).
    - destruct (nth_error ts j) as [u|] eqn:Eu; [|apply IH; trivial; intros; apply H; [right; assumption|assumption]].
      destruct (H j u (or_introl eq_refl) Eu) as [C|NS]; [congruence|].
      destruct (nth_error xs (gObj u)) as [ku|]; [|apply IH; trivial; intros; apply H; [right; assumption|assumption]].
      pose proof (gexec_obj u ku) as ES. destruct (gexec u ku) as [u' ku']. cbn [fst] in ES. apply IH.
      + rewrite nth_set. destruct (Nat.eqb_spec j i); [congruence|exact Et].
      + rewrite nth_set. destruct (Nat.eqb_spec (gObj u) (gObj t)); [congruence|exact Ek].
      + intros j' tj Hj. rewrite nth_set. destruct (Nat.eqb_spec j j') as [<-|NE']; [rewrite Eu; intros E; injection E as <-; rewrite ES; right; exact NS|]. intros Etj. apply (H j' tj (or_intror Hj) Etj).
  Qed.
  Lemma gsolo_same m k' t x r : gOut (fst (gsolo m (t, x))) = Some r -> gsolo (m + k') (t, x) = gsolo m (t, x).
  Proof. intros H. rewrite gsolo_add. destruct (gsolo m (t, x)) as [t' x']. cbn in H. apply gsolo_end. congruence. Qed.

  (** *** what every object keeps *)
  Definition obj_ok (x : obj) : Prop :=
    match x with
    | OEnc st _ => length (eQ st) = length (Qm pp)
    | ODec p _ => (0 < length (prows p))%nat /\ pntt p = false
    | ODecB _ => True
    | OPlain p => (0 < length (prows p))%nat
    end.
  Definition same_kind (x y : obj) : Prop :=
    match x, y with OEnc _ _, OEnc _ _ | ODec _ _, ODec _ _ | ODecB _, ODecB _ | OPlain _, OPlain _ => True | _, _ => False end.
  Definition eff_obj (e : eff (N := N)) : obj := match e with Go _ x | Ret _ x | Stop x => x end.
  Lemma rdAdd_len n st (c : ct) i st' c' : rdAdd (om n) pp st c i = Ok (st', c') -> length (eQ st') = length (eQ st).
  Proof.
    unfold rdAdd. destruct (ctLevel c) as [lc|]; [|discriminate]. cbn [rbind]. destruct (cgetL c i lc) as [p|]; [|discriminate]. cbn [rbind].
    destruct (wrC _ _ _ _); [|discriminate]. cbn [rbind]. intros E. injection E as <- _. reflexivity.
  Qed.
  Lemma truncPool_pos (p : poly N) lc : (0 < length (prows p))%nat -> (0 < length (prows (truncPool p lc)))%nat /\ length (prows (truncPool p lc)) = S (Nat.min lc (plevel p)) /\ pntt (truncPool p lc) = pntt p.
  Proof. intros H. unfold truncPool. cbn [prows pntt]. rewrite firstn_length. unfold plevel. repeat split; lia. Qed.
  Lemma encStep_ok n o mine pk ph lv (c : ct) st pool : length (eQ st) = length (Qm pp) ->
    exists st', eff_obj (encStep pp (om n) o mine pk ph lv c st pool) = OEnc st' pool /\ length (eQ st') = length (Qm pp).
  Proof.
    intros L. assert (KP : forall r : res ct, exists st', eff_obj (goR (OEnc st pool) (c <- r ;; Ok ((lv, c), OEnc st pool))) = OEnc st' pool /\ length (eQ st') = length (Qm pp)).
    { intros [c'|]; cbn; exists st; (split; [reflexivity|exact L]). }
    assert (RD : forall i, exists st', eff_obj (goR (OEnc st pool) ('(st, c) <- rdAdd (om n) pp st c i ;; Ok ((lv, c), OEnc st pool))) = OEnc st' pool /\ length (eQ st') = length (Qm pp)).
    { intros i. destruct (rdAdd (om n) pp st c i) as [[st' c']|] eqn:E; cbn; [|exists st; split; [reflexivity|exact L]]. exists st'. split; [reflexivity|]. rewrite (rdAdd_len _ _ _ _ _ _ E). exact L. }
    assert (LAST : forall ph', ph' = ph -> (ph = 0 \/ 9 <= ph)%nat -> exists st', eff_obj (encStep pp (om n) o mine pk ph lv c st pool) = OEnc st' pool /\ length (eQ st') = length (Qm pp)).
    { intros ph' _ H. exists st. split; [|exact L]. unfold encStep. destruct H as [->|H]; [|destruct ph as [|[|[|[|[|[|[|[|[|ph]]]]]]]]]; try lia]; (match goal with |- context [match ?m with Ok _ => Ret _ _ | Panic => _ end] => destruct m end; reflexivity). }
    destruct (Nat.eq_dec ph 0) as [->|N0]; [apply (LAST 0%nat eq_refl); lia|]. destruct (le_lt_dec 9 ph) as [G|G]; [apply (LAST ph eq_refl); lia|]. clear LAST.
    destruct ph as [|[|[|[|[|[|[|[|[|ph]]]]]]]]]; [lia| | | | | | | | |lia]; cbn [encStep].
    - destruct (ctLevel c) as [lc|]; cbn; [|exists st; split; [reflexivity|exact L]]. eexists. split; [reflexivity|]. cbn [erd eQ]. rewrite wr_length. exact L.
    - cbn. eexists. split; [reflexivity|]. cbn [eset eQ]. rewrite wr_length. exact L.
    - cbn. eexists. split; [reflexivity|]. cbn [eset eQ]. rewrite wr_length. exact L.
    - apply KP.
    - apply KP.
    - apply RD.
    - apply RD.
    - match goal with |- context [if negb ?f then _ else _] => destruct (negb f) end; [apply KP|]. cbn. eexists. split; [reflexivity|]. cbn [eset eQ]. rewrite wr_length. exact L.
  Qed.
  Lemma cutStep_ok (c : ct) pool l p : (0 < length (prows pool))%nat -> cutStep c pool = Ok (l, p) -> (0 < length (prows p))%nat /\ pntt p = pntt pool.
  Proof.
    intros H. unfold cutStep. destruct (ctLevel c) as [lc|]; [|discriminate]. cbn [rbind]. intros E.
    assert (EZ : truncPool pool lc = p) by congruence. rewrite <- EZ. destruct (truncPool_pos pool lc H) as (A & _ & B). split; assumption.
  Qed.
  Lemma reduceStep_ok lv (c : ct) pool p f : (0 < length (prows pool))%nat -> reduceStep pp lv c pool = Ok (p, f) -> (0 < length (prows p))%nat /\ pntt p = pntt pool.
  Proof.
    intros H. unfold reduceStep. destruct (cget c id0) as [p0|]; [|discriminate]. cbn [rbind]. intros E. match type of E with Ok (?a, _) = _ => assert (EZ : a = p) by congruence end. rewrite <- EZ. cbn [prows pntt].
    rewrite wr_length. split; [exact H|reflexivity].
  Qed.
  Lemma step_ok n t x : obj_ok x -> obj_ok (eff_obj (step pp (om n) t x)) /\ same_kind x (eff_obj (step pp (om n) t x)).
  Proof.
    intros OK. unfold step. destruct (gCall t) as [pt pk|pt pk|c sks|c sks|c sks], x as [st pool|pool sc|v|pool]; try (cbn; split; [exact OK|exact Logic.I]).
    - destruct (gPh t =? 0)%nat.
      + unfold encBegin. destruct (is_add is_new (pk_id pk)); cbn; (split; [exact OK|exact Logic.I]).
      + destruct (encStep_ok n (gOrd t) None pk (gPh t) (gLvl t) (gCt t) st pool OK) as (st' & E & L). rewrite E. cbn. split; [exact L|exact Logic.I].
    - destruct (gPh t =? 0)%nat.
      + unfold encBegin. destruct (is_add is_new (pk_id pk)); cbn; (split; [exact OK|exact Logic.I]).
      + destruct (encStep_ok n (gOrd t) (Some pt) pk (gPh t) (gLvl t) (gCt t) st pool OK) as (st' & E & L). rewrite E. cbn. split; [exact L|exact Logic.I].
    - destruct OK as [O1 O2]. unfold decStep. destruct (gPh t) as [|[|[|[|ph]]]].
      + destruct (CopyNew _ (cv c)) as [c1|]; cbn [rbind]; [|cbn; tauto]. destruct (cutStep c1 pool) as [[l p]|] eqn:E; cbn; [|tauto]. destruct (cutStep_ok _ _ _ _ O1 E) as [A B]. rewrite B. tauto.
      + destruct (partStep _ _ _ _ _); cbn; tauto.
      + destruct (reduceStep pp (gLvl t) (gCt t) pool) as [[p [|]]|] eqn:E; cbn; [| |tauto]; destruct (reduceStep_ok _ _ _ _ _ O1 E) as [A B]; rewrite B; tauto.
      + cbn. tauto.
      + cbn. tauto.
    - unfold decBStep. destruct (gPh t) as [|[|ph]].
      + match goal with |- context [goR _ ?m] => assert (X : forall l y, m = Ok (l, y) -> y = ODecB v) end.
        { intros l y. destruct (CopyNew _ _); [|discriminate]. cbn [rbind]. destruct (IDSetOf _ _); [|discriminate]. cbn [rbind]. destruct (decLoop _ _ _ _ _); [|discriminate]. cbn [rbind]. congruence. }
        match goal with |- context [goR _ ?m] => destruct m as [[l y]|] end; cbn; [rewrite (X l y eq_refl)|]; split; exact Logic.I.
      + destruct (cget (gCt t) id0); cbn; split; exact Logic.I.
      + cbn. split; exact Logic.I.
    - cbn in OK. unfold decRStep. destruct (gPh t) as [|[|[|ph]]].
      + destruct (cutStep c pool) as [[l p]|] eqn:E; cbn; [|tauto]. destruct (cutStep_ok _ _ _ _ OK E) as [A B]. tauto.
      + destruct (partStep _ _ _ _ _); cbn; tauto.
      + destruct (reduceStep pp (gLvl t) (gCt t) pool) as [[p [|]]|] eqn:E; cbn; [| |tauto]; destruct (reduceStep_ok _ _ _ _ _ OK E) as [A B]; tauto.
      + cbn. tauto.
  Qed.
  Lemma kind_trans x y z : same_kind x y -> same_kind y z -> same_kind x z.
  Proof. destruct x, y, z; cbn; tauto. Qed.
  Lemma gexec_ok t x : obj_ok x -> obj_ok (snd (gexec t x)) /\ same_kind x (snd (gexec t x)).
  Proof.
    intros OK. unfold ObjShare.gexec. destruct (gOut t); [split; [exact OK|destruct x; exact Logic.I]|]. pose proof (step_ok (gObj t) t x OK) as S.
    destruct (step pp (om (gObj t)) t x) as [[l c] y|a y|y]; exact S.
  Qed.
  Lemma gsched_ok sch : forall ts xs, (forall k x, nth_error xs k = Some x -> obj_ok x) ->
    forall k x, nth_error xs k = Some x -> exists y, nth_error (snd (gsched sch ts xs)) k = Some y /\ obj_ok y /\ same_kind x y.
  Proof.
    induction sch as [|i sch IH]; intros ts xs OK k x E; cbn [ObjShare.gsched].
    - exists x. split; [exact E|]. split; [apply (OK k); exact E|]. destruct x; exact Logic.I.
    - destruct (nth_error ts i) as [t|]; [|apply IH; assumption]. destruct (nth_error xs (gObj t)) as [z|] eqn:Ez; [|apply IH; assumption].
      pose proof (gexec_ok t z (OK _ _ Ez)) as [G1 G2]. destruct (gexec t z) as [t' z']. cbn [snd] in G1, G2.
      assert (OK' : forall k x, nth_error (set_nth (gObj t) z' xs) k = Some x -> obj_ok x).
      { intros k' x'. rewrite nth_set. destruct (Nat.eqb_spec (gObj t) k') as [<-|]; [rewrite Ez; intros E'; injection E' as <-; exact G1|apply OK]. }
      destruct (Nat.eq_dec (gObj t) k) as [<-|NE].
      + destruct (IH (set_nth i t' ts) _ OK' (gObj t) z') as (y & A & B & C); [rewrite nth_set, Nat.eqb_refl, Ez; reflexivity|]. exists y. split; [exact A|]. split; [exact B|].
        rewrite E in Ez. injection Ez as <-. apply (kind_trans _ z'); assumption.
      + apply IH; [exact OK'|]. rewrite nth_set. destruct (Nat.eqb_spec (gObj t) k); [congruence|exact E].
  Qed.
End Run.

Lemma rbind_ret {A} (m : res A) : (d <- m ;; Ok d) = m. Proof. destruct m; reflexivity. Qed.
(** *** one encryption, in the pieces between which other calls may run *)
Section Enc.
  Context {N : nat} (pp : rparams) (om : nat -> nat -> list (R N)).
  Notation R := (R N). Notation ct := (ctT N). Notation gsolo := (gsolo pp om).
  Variables (k : nat) (o : order) (cl : call N) (mine : option (poly N)) (pk : publicKey N).
  Notation n := (length (Qm pp)). Notation id := (pk_id pk).
  Hypothesis (NE : id <> id0) (NP : (0 < n)%nat).
  Hypothesis CL : exists pt, (cl = EncryptMsg pt pk /\ mine = None) \/ (cl = EncryptPtxt pt pk /\ mine = Some pt).
  Definition ptOf (pool : poly N) : poly N := match mine with Some p => p | None => pool end.
  Definition eT (ph lv : nat) (c : ct) : gthread N := GT k cl o ph lv c None.
  Lemma eT_step ph lv c st pool : gexec pp om (eT (S ph) lv c) (OEnc st pool) =
    match encStep pp (om k) o mine pk (S ph) lv c st pool with
    | Go (l, c) y => (eT (S (S ph)) l c, y)
    | Ret a y => (GT k cl o (S ph) lv c (Some (Ok a)), y)
    | Stop y => (GT k cl o (S ph) lv c (Some Panic), y)
    end.
  Proof using CL. clear NE NP. destruct CL as (pt & [[E1 E2]|[E1 E2]]); unfold gexec, eT, step; cbn [gOut gCall gObj gPh gOrd gLvl gCt Nat.eqb]; rewrite E1, E2; cbn [Nat.eqb]; destruct (encStep _ _ _ _ _ _ _ _ _ _) as [[l c'] y|a y|y]; reflexivity. Qed.
  Lemma solo_S m t x : gsolo (S m) (t, x) = gsolo m (gexec pp om t x). Proof. reflexivity. Qed.
  Definition maskOf lv (u : list R) : list R := lvlQ1 pp lv r_mform (lvlQ1 pp lv ntt u).
  Lemma enc13 l c st pool : ctLevel c = Ok (n - 1)%nat -> length (eQ st) = n ->
    let lv := Nat.min (plevel (ptOf pool)) (n - 1) in
    exists st', gsolo 3 (eT 1 l c, OEnc st pool) = (eT 4 lv c, OEnc st' pool) /\ en st' = S (en st) /\ length (eQ st') = n /\
      forall f b, lvlQ2 pp lv f (eQ st') b = lvlQ2 pp lv f (maskOf lv (om k (en st))) b.
  Proof using CL NP.
    clear NE. intros LC LS lv. rewrite solo_S, eT_step. cbn [encStep]. fold (ptOf pool). rewrite LC. cbn [rbind goR]. fold lv.
    rewrite solo_S, eT_step. cbn [encStep]. rewrite solo_S, eT_step. cbn [encStep gsolo].
    eexists. split; [reflexivity|]. split; [reflexivity|]. split; [unfold eset, erd; cbn [eQ]; rewrite !wr_length; exact LS|].
    intros f b. assert (PL : (lv < length (eQ st))%nat) by (unfold lv; lia). unfold eset, erd. cbn [eQ]. rewrite wr2l by (rewrite !wr_length; lia). unfold maskOf. rewrite wr1 by (rewrite wr_length; lia). rewrite (wr1 pp lv ntt) by lia. reflexivity.
  Qed.
  Variables (lv : nat) (base : ct).
  Hypothesis LN : (lv < n)%nat.
  Notation hold := (hold id lv n false false base).
  Lemma enc45 c x0 x1 st pool : hold c x0 x1 -> exists c', gsolo 2 (eT 4 lv c, OEnc st pool) = (eT 6 lv c', OEnc st pool) /\
    hold c' (lvlQ1 pp lv intt (lvlQ2 pp lv r_mont (eQ st) (qpQ (pk0 pk)))) (lvlQ1 pp lv intt (lvlQ2 pp lv r_mont (eQ st) (qpQ (pk1 pk)))).
  Proof using CL NE NP LN.
    intros H. destruct (wrC_hold0 id lv n false false base NE LN c _ _ lv (lvlQ2 pp lv r_mont (eQ st) (qpQ (pk0 pk))) H (le_n _) LN) as (c1 & E1 & H1); [unfold lvlQ2; rewrite tab_length; lia|].
    rewrite firstn_full in H1 by apply tab_length.
    destruct (wrC_hold1 id lv n false false base NE LN c1 _ _ lv (lvlQ2 pp lv r_mont (eQ st) (qpQ (pk1 pk))) H1 (le_n _) LN) as (c2 & E2 & H2); [unfold lvlQ2; rewrite tab_length; lia|].
    rewrite firstn_full in H2 by apply tab_length.
    destruct (step0 (B := ct) id lv n false false base NE LN c2 _ _ (lvlQ1 pp lv intt) H2 (local1 pp lv n LN _)) as (c3 & H3 & K3).
    destruct (step1 (B := ct) id lv n false false base NE LN c3 _ _ (lvlQ1 pp lv intt) H3 (local1 pp lv n LN _)) as (c4 & H4 & K4).
    exists c4. split; [|exact H4]. rewrite solo_S, eT_step. cbn [encStep]. rewrite E1. cbn [rbind goR]. rewrite solo_S, eT_step. cbn [encStep]. rewrite E2. cbn [rbind].
    rewrite (K3 _). specialize (K4 (fun d => Ok d)). cbv beta in K4.
    assert (K5 : (p1 <- cgetL c3 id lv ;; wrC lv c3 id (lvlQ1 pp lv intt (prows p1))) = Ok c4).
    { rewrite <- K4. destruct (cgetL c3 id lv) as [p|]; [|reflexivity]. cbn [rbind]. symmetry. apply rbind_ret. }
    rewrite K5. reflexivity.
  Qed.
  Definition plainRows (pt : poly N) : list R := if negb (pntt pt) then prows pt else lvlQ1 pp lv intt (prows pt).
  Lemma enc69 c x0 x1 st pool : hold c x0 x1 -> length (eQ st) = n ->
    exists c' st', gOut (fst (gsolo 4 (eT 6 lv c, OEnc st pool))) = Some (Ok (ACt c')) /\ snd (gsolo 4 (eT 6 lv c, OEnc st pool)) = OEnc st' pool /\
      en st' = (en st + 2)%nat /\ length (eQ st') = n /\
      forall x, mget seq_dec c' x = if string_dec x id0 then Some (Pol (lvlQ2 pp lv r_add (lvlQ2 pp lv r_add x0 (om k (en st))) (plainRows (ptOf pool))) false)
        else if string_dec x id then Some (Pol (lvlQ2 pp lv r_add x1 (om k (S (en st)))) false) else mget seq_dec base x.
  Proof using CL NE NP LN.
    intros H LS.
    destruct (rdAdd_hold0 pp (om k) id lv n false false base NE LN st c _ _ H) as (c5 & E5 & H5).
    destruct (rdAdd_hold1 pp (om k) id lv n false false base NE LN (ES (S (en st)) (eQ st)) c5 _ _ H5) as (c6 & E6 & H6). cbn [en eQ] in E6, H6.
    set (s2 := ES (S (S (en st))) (eQ st)).
    set (s3 := if negb (pntt (ptOf pool)) then s2 else eset lv s2 (lvlQ1 pp lv intt (prows (ptOf pool)))).
    assert (X : exists c7 c8, gsolo 2 (eT 8 lv c6, OEnc s2 pool) = gsolo 1 (eT 9 lv c7, OEnc s3 pool) /\
      (if negb (pntt (ptOf pool)) then Ok c7 else p0 <- cgetL c7 id0 lv ;; wrC lv c7 id0 (lvlQ2 pp lv r_add (prows p0) (eQ s3))) = Ok c8 /\
      hold c8 (lvlQ2 pp lv r_add (lvlQ2 pp lv r_add x0 (om k (en st))) (plainRows (ptOf pool))) (lvlQ2 pp lv r_add x1 (om k (S (en st))))).
    { unfold s3, plainRows. destruct (negb (pntt (ptOf pool))) eqn:FP.
      - destruct (step0 (B := ct) id lv n false false base NE LN c6 _ _ (fun a => lvlQ2 pp lv r_add a (prows (ptOf pool))) H6 (local2 pp lv n LN _ _)) as (c7 & H7 & K7).
        exists c7, c7. split; [|split; [reflexivity|exact H7]]. rewrite solo_S, eT_step. cbn [encStep]. fold (ptOf pool). rewrite FP. specialize (K7 (fun d => Ok d)). cbv beta in K7.
        assert (K8 : (p0 <- cgetL c6 id0 lv ;; wrC lv c6 id0 (lvlQ2 pp lv r_add (prows p0) (prows (ptOf pool)))) = Ok c7).
        { rewrite <- K7. destruct (cgetL c6 id0 lv) as [p|]; [|reflexivity]. cbn [rbind]. symmetry. apply rbind_ret. }
        rewrite K8. reflexivity.
      - destruct (step0 (B := ct) id lv n false false base NE LN c6 _ _ (fun a => lvlQ2 pp lv r_add a (eQ (eset lv s2 (lvlQ1 pp lv intt (prows (ptOf pool)))))) H6 (local2 pp lv n LN _ _)) as (c7 & H7 & K7).
        exists c6, c7. split; [rewrite solo_S, eT_step; cbn [encStep]; fold (ptOf pool); rewrite FP; reflexivity|]. specialize (K7 (fun d => Ok d)). cbv beta in K7.
        split; [rewrite <- K7; destruct (cgetL c6 id0 lv) as [p|]; [|reflexivity]; cbn [rbind]; symmetry; apply rbind_ret|].
        assert (U7 : forall f b, lvlQ2 pp lv f b (eQ (eset lv s2 (lvlQ1 pp lv intt (prows (ptOf pool))))) = lvlQ2 pp lv f b (lvlQ1 pp lv intt (prows (ptOf pool)))).
        { intros f b. unfold eset, s2. cbn [eQ]. rewrite wr2r by lia. reflexivity. }
        rewrite U7 in H7. exact H7. }
    destruct X as (c7 & c8 & X1 & X2 & (p0 & p1 & A & B & C & D & E & F & G & J & Wc & O)).
    assert (NE' : id0 <> id) by congruence.
    assert (CA : cget c8 id0 = Ok p0) by (unfold cget; rewrite A; reflexivity). assert (CB : cget c8 id = Ok p1) by (unfold cget; rewrite B; reflexivity).
    set (cF := cset (cset (cset c8 id (Pol (prows p1) (pntt p0))) id0 (Pol (firstn (S lv) (prows p0)) (pntt p0))) id (Pol (firstn (S lv) (prows p1)) (pntt p0))).
    assert (RUN : gsolo 4 (eT 6 lv c, OEnc st pool) = (GT k cl o 9 lv c7 (Some (Ok (ACt cF))), OEnc s3 pool)).
    { rewrite solo_S, eT_step. cbn [encStep]. rewrite E5. cbn [rbind goR]. rewrite solo_S, eT_step. cbn [encStep]. rewrite E6. cbn [rbind goR]. fold s2.
      rewrite X1. rewrite solo_S, eT_step. cbn [encStep]. fold (ptOf pool). rewrite X2. cbn [rbind]. rewrite CA, CB. cbn [rbind]. rewrite cget_neq, CA by exact NE'. cbn [rbind].
      rewrite cget_neq, cget_eq by exact NE. cbn [rbind prows pntt]. reflexivity. }
    exists cF, s3. rewrite RUN. cbn [fst snd gOut]. split; [reflexivity|]. split; [reflexivity|].
    split; [unfold s3, s2; destruct (negb _); unfold eset; cbn [en]; lia|]. split; [unfold s3, s2; destruct (negb _); unfold eset; cbn [eQ]; rewrite ?wr_length; exact LS|].
    intros x. unfold cF, cset. rewrite !mget_mset. rewrite C, D, G. destruct (seq_dec x id), (seq_dec x id0), (string_dec x id0), (string_dec x id); try congruence. apply O; assumption.
  Qed.
End Enc.
