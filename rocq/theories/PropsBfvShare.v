(** C54: concurrent mkbfv MulRelinNew calls on different Evaluators (BfvShare.v). *)
From Flocq Require Import Core BinarySingleNaN.
From Coq Require Import Znumtheory Setoid Morphisms.
From Verif Require Import Base IdSetModel IdSetSpec IdSetProofs KeySetModel NumTheory Negacyclic Ntt Word FloatModel CkksFloat BasisExt BasisExtProofs DecompProofs BasisSpec Rows RlweModel SchemeSpec ExtProd ExtProps KeyGenModel Galois KeyGenProofs CtModel CtSpec CtProofs EncDecProofs KeySwitchModel Digits KsLoops RotProofs CkksModel CkksProofs Instance PropsEnc BfvModel PropsBfv BfvMulModel BfvConv BfvGadget BfvDig BfvKey BfvCross BfvMulProofs PropsBfvConv PropsBfvMul PropsBfvMulEx KsPool KsPoolProofs EvalPool EvalPoolProofs BfvPool BfvPoolProofs PropsBfvPool ShareModel PropsShare BfvShare.
Open Scope Z_scope.

(** ** Specification *)
Section Spec.
  Context {N : nat} (b : bparams).
  (** the parties of the operands of a call *)
  Definition bcall_parties (t : bthread N) : list string := parties (bt0 t) ++ parties (bt1 t).
  (** t is a call about to start on the key set k: operands of the scheme's shape, an Evaluator with buffers of the sizes it was created with, a key for every party *)
  Definition bcall_ready (k : bkeyset N) (t : bthread N) : Prop :=
    exists o s c0 c1, t = bbegin (btS t) o s c0 c1 /\ order_ok o /\ bsh b s /\ wfct (ppQ b) (maxLevel (ppQ b)) false c0 /\ wfct (ppQ b) (maxLevel (ppQ b)) false c1 /\
      forall id, In id (bcall_parties t) -> mget seq_dec (ksK k) id <> None.
  (** what the call returns when nothing else runs and no buffer is reused *)
  Definition bown (crs : crsT N) (k : bkeyset N) (t : bthread N) : res (ctT N) := bMulRelinNew b (btO t) crs (bt0 t) (bt1 t) (ksK k).
  (** the buffers of a key set: of the sizes they were created with, one in each pool for every key, and one for component "0" in the lifting pools *)
  Definition bpools_ok (k : bkeyset N) : Prop :=
    pshape b (ksR1 k) /\ pshape b (ksR2 k) /\ bhshape b (ksH0 k) /\ bhshape b (ksH1 k) /\ mget seq_dec (ksR1 k) id0 <> None /\ mget seq_dec (ksR2 k) id0 <> None /\
    forall id, mget seq_dec (ksK k) id <> None -> mget seq_dec (ksR1 k) id <> None /\ mget seq_dec (ksR2 k) id <> None /\ mget seq_dec (ksH0 k) id <> None /\ mget seq_dec (ksH1 k) id <> None.
  (** what call number i has returned after a schedule (None: it still runs) *)
  Definition breturned (crs : crsT N) (sch : list nat) (ts : list (bthread N)) (ks : list (bkeyset N)) (i : nat) : option (res (ctT N)) :=
    match nth_error (fst (bschedule b crs sch ts ks)) i with Some t => btR t | None => None end.
  (** the ciphertext with the parties of a whose components are those of c where c has them *)
  Definition mix (a c : ctT N) : ctT N := map (fun x => (fst x, match mget seq_dec c (fst x) with Some q => q | None => snd x end)) a.
End Spec.

Section Fetch.
  Context {N : nat}.
  Notation R := (R N). Notation ct := (ctT N).
  Lemma fetch_lift (conv : list R -> res (list R)) l (c v : ct) pool : liftCt conv l c = Ok v ->
    (forall id p r, In id l -> cget c id = Ok p -> conv (prows p) = Ok r -> mget seq_dec pool id = Some r) -> fetch pool l = Ok v.
  Proof.
    unfold liftCt, fetch. generalize (nil : ct) as acc. revert v. induction l as [|x l IH]; intros v acc E H; cbn [rfold] in E |- *; [exact E|].
    destruct (cget c x) as [p|] eqn:EP; cbn [rbind] in E; [|discriminate]. destruct (conv (prows p)) as [r|] eqn:ER; cbn [rbind] in E; [|discriminate].
    rewrite (H x p r (or_introl eq_refl) EP ER). cbn [rbind]. apply (IH v (cset acc x (Pol r false)) E). intros id q s Hid. apply H. right. exact Hid.
  Qed.
  Lemma mix_keys (a c : ct) : keys (mix a c) = keys a.
  Proof. unfold mix, keys. rewrite map_map. reflexivity. Qed.
  Lemma mix_get (a c : ct) id : mget seq_dec (mix a c) id = match mget seq_dec a id with Some p => Some (match mget seq_dec c id with Some q => q | None => p end) | None => None end.
  Proof.
    unfold mix. induction a as [|[x p] a IH]; [reflexivity|]. cbn [map fst snd mget]. destruct (seq_dec id x) as [->|]; [reflexivity|exact IH].
  Qed.
  Lemma mix_wf pp level (a c : ct) : wfct pp level false a -> wfct pp level false c -> wfct pp level false (mix a c).
  Proof.
    intros (A1 & A2 & A3) (_ & _ & C3). split; [unfold mwf; rewrite mix_keys; exact A1|]. split; [rewrite mix_keys; exact A2|]. intros id p. rewrite mix_get. destruct (mget seq_dec a id) as [q|] eqn:E; [|discriminate].
    intros X. injection X as <-. destruct (mget seq_dec c id) as [q'|] eqn:E'; [apply (C3 _ _ E')|apply (A3 _ _ E)].
  Qed.
  Lemma ids_keys o (a c : ct) : keys a = keys c -> IDSetOf o a = IDSetOf o c.
  Proof. intros H. unfold IDSetOf. rewrite H. reflexivity. Qed.
  Lemma parties_keys (a c : ct) : keys a = keys c -> parties a = parties c.
  Proof. intros H. unfold parties. rewrite H. reflexivity. Qed.
End Fetch.

Section Steps.
  Context {N : nat} (b : bparams) (WB : wfb N b) (HD : (length (bQ b) mod alpha (ppQ b) = 0)%nat) (crs : crsT N).
  Notation R := (R N). Notation ct := (ctT N). Notation n := (length (bQ b)). Notation pp := (ppQ b).
  Lemma lift_pool (conv : list R -> res (list R)) (conv' : cvt N -> list R -> list R -> res (cvt N * list R)) l (c : ct) : (forall e p old, cvsh b e -> length old = (n + n)%nat -> rsim (cpost b) (conv p) (conv' e p old)) -> forall (s : bst N) (pool : gomap string (list R)) (acc : ct) (s' : bst N) (pool' : gomap string (list R)) (v' : ct),
    bsh b s -> pshape b pool ->
    rfold (fun '(s, pool, acc) id =>
        p <- cget c id ;;
        old <- match mget seq_dec pool id with Some x => Ok x | None => Panic end ;;
        '(e, r) <- conv' (bEv s) (prows p) old ;;
        Ok (stEv s e, mset seq_dec pool id r, cset acc id (Pol r false))) l (s, pool, acc) = Ok (s', pool', v') ->
    bsh b s' /\ pkeep b pool pool' /\ forall id, (In id l -> forall p r, cget c id = Ok p -> conv (prows p) = Ok r -> mget seq_dec pool' id = Some r) /\ (~ In id l -> mget seq_dec pool' id = mget seq_dec pool id).
  Proof.
    intros HC. induction l as [|x l IH]; intros s pool acc s' pool' v' SH PS E; cbn [rfold] in E.
    - injection E as <- <- <-. split; [exact SH|]. split; [split; auto|]. intros id. split; [intros []|reflexivity].
    - destruct (cget c x) as [p|] eqn:EP; cbn [rbind] in E; [|discriminate]. destruct (mget seq_dec pool x) as [old|] eqn:EO; cbn [rbind] in E; [|discriminate].
      assert (CE : cvsh b (bEv s)) by (unfold bsh in SH; tauto). pose proof (HC (bEv s) (prows p) old CE (PS _ _ EO)) as X.
      destruct (conv (prows p)) as [r|] eqn:ER, (conv' (bEv s) (prows p) old) as [[e r']|]; cbn [rsim rbind] in X, E; try discriminate; try contradiction. destruct X as (E1 & L & CV). cbn [fst snd] in E1, CV. subst r'.
      assert (P1 : pshape b (mset seq_dec pool x r)) by (intros y z; rewrite mget_mset; destruct (seq_dec y x); [intros Z; injection Z as <-; exact L|apply PS]).
      destruct (IH _ _ _ _ _ _ (bsh_Ev b s e SH CV) P1 E) as (S' & (K1 & K2) & F). split; [exact S'|]. split.
      + split; [exact K1|]. intros id Hid. apply K2. rewrite mget_mset. destruct (seq_dec id x); [discriminate|exact Hid].
      + intros id. destruct (F id) as [F1 F2]. split.
        * intros [<-|Hid] q r0 Eq Er; [|apply (F1 Hid q r0 Eq Er)]. destruct (in_dec seq_dec x l) as [I|NI]; [apply (F1 I q r0 Eq Er)|]. rewrite (F2 NI), mget_mset. destruct (seq_dec x x); [|congruence]. congruence.
        * intros NI. cbn in NI. rewrite F2 by tauto. rewrite mget_mset. destruct (seq_dec id x); [subst; tauto|reflexivity].
  Qed.
  (** one call alone on its key set *)
  Fixpoint bsolo (m : nat) (x : bthread N * bkeyset N) : bthread N * bkeyset N := match m with O => x | S m => bsolo m (bexec b crs (fst x) (snd x)) end.
  Lemma bsolo_add m k x : bsolo (m + k) x = bsolo k (bsolo m x).
  Proof. revert x. induction m as [|m IH]; intros x; cbn; [reflexivity|apply IH]. Qed.
  Lemma bsolo_S m x : bsolo (S m) x = bexec b crs (fst (bsolo m x)) (snd (bsolo m x)).
  Proof. replace (S m) with (m + 1)%nat by lia. rewrite bsolo_add. reflexivity. Qed.
  Lemma bexec_end (t : bthread N) k : (5 <= btP t)%nat -> bexec b crs t k = (t, k).
  Proof. intros H. unfold bexec. destruct (Nat.leb_spec 5 (btP t)); [reflexivity|lia]. Qed.
  Lemma bsolo_end m (t : bthread N) k : (5 <= btP t)%nat -> bsolo m (t, k) = (t, k).
  Proof. intros H. induction m as [|m IH]; [reflexivity|]. cbn [bsolo fst snd]. rewrite bexec_end by exact H. exact IH. Qed.
  Lemma bsolo_1 m t k : bsolo (S m) (t, k) = bsolo m (bexec b crs t k). Proof. reflexivity. Qed.
  Notation wfq := (wfct pp (maxLevel pp) false).
  Lemma fetch_in pool l (v : ct) : fetch pool l = Ok v -> forall x, In x (keys v) <-> In x l.
  Proof.
    unfold fetch. assert (G : forall l (a v : ct), rfold (fun (acc : ct) id => r <- match mget seq_dec pool id with Some x => Ok x | None => Panic end ;; Ok (cset acc id (Pol r false))) l a = Ok v -> forall x, In x (keys v) <-> In x (keys a) \/ In x l).
    { clear. induction l as [|y l IH]; intros a v E x; cbn [rfold] in E; [injection E as <-; cbn; tauto|]. destruct (mget seq_dec pool y) as [r|]; cbn [rbind] in E; [|discriminate].
      rewrite (IH _ _ E x). cbn [In]. rewrite <- !(mget_In_keys seq_dec). unfold cset. rewrite mget_mset. destruct (seq_dec x y) as [->|NE]; [intuition discriminate|]. intuition congruence. }
    intros E x. rewrite (G l nil v E x). cbn. tauto.
  Qed.
  (** the last three steps *)
  Lemma rest2 S o s (c0 c1 c0R c1R out : ct) (k : bkeyset N) x y : order_ok o -> bsh b s -> bpools_ok b k -> wfq c0 -> wfq c1 -> bNewBinary pp o x y = Ok out ->
    (forall id, In id (parties c0) \/ In id (parties c1) -> mget seq_dec (ksK k) id <> None) ->
    fetch (ksR1 k) (o 40%nat (keys c0)) = Ok c0R -> fetch (ksR2 k) (o 41%nat (keys c1)) = Ok c1R ->
    btR (fst (bsolo 3 (BTh S c0 c1 o s 2 out None, k))) = Some (
      ids0 <- IDSetOf (o 42%nat) c0 ;; ids1 <- IDSetOf (o 43%nat) c1 ;; l0 <- ctLevel c0 ;; h0 <- hoistCt b l0 (o 44%nat (keys ids0)) c0R ;; l1 <- ctLevel c1 ;; h1 <- hoistCt b l1 (o 45%nat (keys ids1)) c1R ;;
      MulAndRelinBFVHoisted b o crs c0R c1R (Some h0) (Some h1) (ksK k) out).
  Proof.
    intros O SH (PS1 & PS2 & HS0 & HS1 & Z1 & Z2 & KH) W0 W1 EO HK F0 F1. pose proof (maxn b WB HD) as MN.
    pose proof (shape_level _ _ (wfct_shape pp _ _ W0)) as L0. pose proof (shape_level _ _ (wfct_shape pp _ _ W1)) as L1.
    destruct (IDSetOf_ok (o 42%nat) c0 (fun l => O 42%nat l)) as (ids0 & E0 & _ & _). destruct (IDSetOf_ok (o 43%nat) c1 (fun l => O 43%nat l)) as (ids1 & E1 & _ & _).
    pose proof (ids_of_parties o _ _ _ O E0) as P0. pose proof (ids_of_parties o _ _ _ O E1) as P1. rewrite E0, E1, L0, L1. cbn [rbind].
    pose proof (bhoistSt_sim b WB HD (maxLevel pp) (o 44%nat (keys ids0)) c0R s (ksH0 k) MN SH HS0) as H0.
    match type of H0 with ?X -> _ => assert (K : X) end. { intros id Hid. apply (Permutation_in _ (O 44%nat _)), P0 in Hid. apply (KH id). apply HK. left. exact Hid. }
    specialize (H0 K). clear K. rewrite bsolo_1. unfold bexec. cbn [btP Nat.leb btO bt0 bt1 btE btN btS bstep]. rewrite F0. cbn [rbind]. rewrite E0, L0. cbn [rbind].
    destruct (hoistCt b (maxLevel pp) (o 44%nat (keys ids0)) c0R) as [h0|], (bhoistSt b (maxLevel pp) (o 44%nat (keys ids0)) c0R s (ksH0 k)) as [[s1 H0']|]; cbn [rsim rbind] in H0 |- *; try contradiction.
    2:{ rewrite bsolo_end by (cbn [btP]; lia). reflexivity. }
    destruct H0 as (Ss & HK0 & IV0 & CV0).
    pose proof (bhoistSt_sim b WB HD (maxLevel pp) (o 45%nat (keys ids1)) c1R s1 (ksH1 k) MN Ss HS1) as H1.
    match type of H1 with ?X -> _ => assert (K : X) end. { intros id Hid. apply (Permutation_in _ (O 45%nat _)), P1 in Hid. apply (KH id). apply HK. right. exact Hid. }
    specialize (H1 K). clear K. rewrite bsolo_1. unfold bexec. cbn [btP Nat.leb btO bt0 bt1 btE btN btS bstep ksR1 ksR2 ksH0 ksH1 ksK]. rewrite F1. cbn [rbind]. rewrite E1, L1. cbn [rbind].
    destruct (hoistCt b (maxLevel pp) (o 45%nat (keys ids1)) c1R) as [h1|], (bhoistSt b (maxLevel pp) (o 45%nat (keys ids1)) c1R s1 (ksH1 k)) as [[s2 H1']|]; cbn [rsim rbind] in H1 |- *; try contradiction.
    2:{ rewrite bsolo_end by (cbn [btP]; lia). reflexivity. }
    destruct H1 as (Ss1 & HK1 & IV1 & CV1).
    rewrite bsolo_1. cbn [bsolo]. unfold bexec. cbn [btP Nat.leb btO bt0 bt1 btE btN btS bstep ksR1 ksR2 ksH0 ksH1 ksK]. rewrite F0. cbn [rbind]. rewrite F1. cbn [rbind].
    pose proof (bMulSt_sim b WB HD true o crs s2 c0R c1R (Some h0) (Some H0') (Some h1) (Some H1') (ksK k) out O Ss1) as M.
    match type of M with ?X -> ?Y -> _ => assert (K1 : X) by (intros l E; rewrite (bNew_level b o x y out l EO E); exact MN); assert (K2 : Y) end.
    { intros l E. rewrite (bNew_level b o x y out l EO E). split; apply bhrel_of; trivial; intros id Hid; apply in_parties in Hid as [NE Hid].
      - apply CV0. apply (Permutation_in _ (Permutation_sym (O 44%nat _))), P0, in_parties. split; [exact NE|]. apply (Permutation_in _ (O 40%nat _)), (proj1 (fetch_in _ _ _ F0 id)), Hid.
      - apply CV1. apply (Permutation_in _ (Permutation_sym (O 45%nat _))), P1, in_parties. split; [exact NE|]. apply (Permutation_in _ (O 41%nat _)), (proj1 (fetch_in _ _ _ F1 id)), Hid. }
    specialize (M K1 K2 ltac:(discriminate)). cbv beta iota in M.
    destruct (MulAndRelinBFVHoisted _ _ _ _ _ _ _ _ _) as [c|], (bMulSt _ _ _ _ _ _ _ _ _ _ _) as [[s3 c']|]; cbn [rsim rbind] in M |- *; try contradiction; [|reflexivity].
    destruct M as [-> _]. reflexivity.
  Qed.
  (** what a lift leaves in a pool *)
  Lemma lift_step (conv : list R -> res (list R)) (conv' : cvt N -> list R -> list R -> res (cvt N * list R)) l (c : ct) s pool :
    (forall e p old, cvsh b e -> length old = (n + n)%nat -> rsim (cpost b) (conv p) (conv' e p old)) -> bsh b s -> pshape b pool -> (forall id, In id l -> mget seq_dec pool id <> None) ->
    rsim (fun v '(s', pool', v') => v = v' /\ bsh b s' /\ pkeep b pool pool' /\ fetch pool' l = Ok v /\
      forall id, (In id l -> forall p r, cget c id = Ok p -> conv (prows p) = Ok r -> mget seq_dec pool' id = Some r) /\ (~ In id l -> mget seq_dec pool' id = mget seq_dec pool id))
      (liftCt conv l c) (liftSt conv' l c s pool).
  Proof.
    intros HC SH PS HI. pose proof (liftSt_sim b conv conv' l c s pool HC SH PS HI) as L.
    destruct (liftCt conv l c) as [v|] eqn:EL, (liftSt conv' l c s pool) as [[[s' pool'] v']|] eqn:ES; cbn [rsim] in L |- *; try contradiction; trivial.
    destruct L as (<- & S' & PK & _). unfold liftSt in ES. destruct (lift_pool conv conv' l c HC _ _ _ _ _ _ SH PS ES) as (_ & _ & F).
    split; [reflexivity|]. split; [exact S'|]. split; [exact PK|]. split; [|exact F]. apply (fetch_lift conv l c v pool' EL). intros id p r Hid. apply (proj1 (F id) Hid).
  Qed.
  Lemma pools_R1 (k : bkeyset N) p : bpools_ok b k -> pkeep b (ksR1 k) p -> bpools_ok b (KSet (ksK k) p (ksR2 k) (ksH0 k) (ksH1 k)).
  Proof. intros (A1 & A2 & A3 & A4 & A5 & A6 & A7) [K1 K2]. unfold bpools_ok. cbn [ksK ksR1 ksR2 ksH0 ksH1]. split; [exact K1|]. do 3 (split; [assumption|]). split; [apply K2; exact A5|]. split; [exact A6|]. intros id Hid. destruct (A7 id Hid) as (B1 & B2 & B3 & B4). auto. Qed.
  Lemma pools_R2 (k : bkeyset N) p : bpools_ok b k -> pkeep b (ksR2 k) p -> bpools_ok b (KSet (ksK k) (ksR1 k) p (ksH0 k) (ksH1 k)).
  Proof. intros (A1 & A2 & A3 & A4 & A5 & A6 & A7) [K1 K2]. unfold bpools_ok. cbn [ksK ksR1 ksR2 ksH0 ksH1]. split; [exact A1|]. split; [exact K1|]. do 2 (split; [assumption|]). split; [exact A5|]. split; [apply K2; exact A6|]. intros id Hid. destruct (A7 id Hid) as (B1 & B2 & B3 & B4). auto. Qed.
  Lemma pools_H0 (k : bkeyset N) h : bpools_ok b k -> bhkeep b (ksH0 k) h -> bpools_ok b (KSet (ksK k) (ksR1 k) (ksR2 k) h (ksH1 k)).
  Proof. intros (A1 & A2 & A3 & A4 & A5 & A6 & A7) [K1 K2]. unfold bpools_ok. cbn [ksK ksR1 ksR2 ksH0 ksH1]. do 2 (split; [assumption|]). split; [exact K1|]. do 3 (split; [assumption|]). intros id Hid. destruct (A7 id Hid) as (B1 & B2 & B3 & B4). auto. Qed.
  Lemma pools_H1 (k : bkeyset N) h : bpools_ok b k -> bhkeep b (ksH1 k) h -> bpools_ok b (KSet (ksK k) (ksR1 k) (ksR2 k) (ksH0 k) h).
  Proof. intros (A1 & A2 & A3 & A4 & A5 & A6 & A7) [K1 K2]. unfold bpools_ok. cbn [ksK ksR1 ksR2 ksH0 ksH1]. do 3 (split; [assumption|]). split; [exact K1|]. do 2 (split; [assumption|]). intros id Hid. destruct (A7 id Hid) as (B1 & B2 & B3 & B4). auto. Qed.
  Lemma in_pool (c : ct) (k : bkeyset N) (o : order) m : order_ok o -> bpools_ok b k -> (forall id, In id (parties c) -> mget seq_dec (ksK k) id <> None) ->
    forall id, In id (o m (keys c)) -> mget seq_dec (ksR1 k) id <> None /\ mget seq_dec (ksR2 k) id <> None.
  Proof.
    intros O (A1 & A2 & A3 & A4 & A5 & A6 & A7) H id Hid. apply (Permutation_in _ (O m _)) in Hid. destruct (string_dec id id0) as [->|NE]; [split; assumption|].
    destruct (A7 id) as (B1 & B2 & _); [apply H; apply in_parties; tauto|]. split; assumption.
  Qed.
  (** the steps after the first lift *)
  Lemma rest1 S o s (c0 c1 c0R out : ct) (k : bkeyset N) x y : order_ok o -> bsh b s -> bpools_ok b k -> wfq c0 -> wfq c1 -> bNewBinary pp o x y = Ok out ->
    (forall id, In id (parties c0) \/ In id (parties c1) -> mget seq_dec (ksK k) id <> None) ->
    fetch (ksR1 k) (o 40%nat (keys c0)) = Ok c0R ->
    btR (fst (bsolo 4 (BTh S c0 c1 o s 1 out None, k))) = Some (
      c1R <- liftCt (Rescale b) (o 41%nat (keys c1)) c1 ;;
      ids0 <- IDSetOf (o 42%nat) c0 ;; ids1 <- IDSetOf (o 43%nat) c1 ;; l0 <- ctLevel c0 ;; h0 <- hoistCt b l0 (o 44%nat (keys ids0)) c0R ;; l1 <- ctLevel c1 ;; h1 <- hoistCt b l1 (o 45%nat (keys ids1)) c1R ;;
      MulAndRelinBFVHoisted b o crs c0R c1R (Some h0) (Some h1) (ksK k) out).
  Proof.
    intros O SH PO W0 W1 EO HK F0. rewrite bsolo_1. unfold bexec. cbn [btP Nat.leb btO bt0 bt1 btE btN btS bstep].
    pose proof (lift_step (Rescale b) (RescaleSt b) (o 41%nat (keys c1)) c1 s (ksR2 k) (RescaleSt_sim b WB HD) SH (proj1 (proj2 PO))) as L.
    match type of L with ?X -> _ => assert (K : X) end. { intros id Hid. apply (in_pool c1 k o 41 O PO (fun i H => HK i (or_intror H)) id Hid). }
    specialize (L K). clear K. destruct (liftCt (Rescale b) _ c1) as [c1R|], (liftSt (RescaleSt b) _ c1 s (ksR2 k)) as [[[s1 R2] c1R']|]; cbn [rsim rbind] in L |- *; try contradiction.
    2:{ rewrite bsolo_end by (cbn [btP]; lia). reflexivity. }
    destruct L as (_ & S1 & PK & F1 & _).
    apply (rest2 S o s1 c0 c1 c0R c1R out (KSet (ksK k) (ksR1 k) R2 (ksH0 k) (ksH1 k)) x y O S1 (pools_R2 k R2 PO PK) W0 W1 EO HK F0 F1).
  Qed.
  Lemma bsolo_ok (t : bthread N) (k : bkeyset N) : bcall_ready b k t -> bpools_ok b k -> btR (fst (bsolo 5 (t, k))) = Some (bown b crs k t).
  Proof.
    intros (o & s & c0 & c1 & ET & O & SH & W0 & W1 & HK) PO. rewrite ET in HK |- *. unfold bbegin, bcall_parties, bown in *. cbn [bt0 bt1 btO] in *.
    assert (HK' : forall id, In id (parties c0) \/ In id (parties c1) -> mget seq_dec (ksK k) id <> None) by (intros id Hid; apply HK; apply in_or_app; exact Hid). clear HK. generalize (btS t). intros S.
    rewrite bsolo_1. unfold bexec. cbn [btP Nat.leb btO bt0 bt1 btE btN btS bstep]. unfold bMulRelinNew. destruct (bNewBinary pp o c0 c1) as [out|] eqn:EO; cbn [rbind].
    2:{ rewrite bsolo_end by (cbn [btP]; lia). reflexivity. }
    unfold bMulRelinHoisted.
    pose proof (lift_step (ModUpQtoR b) (ModUpQtoRSt b) (o 40%nat (keys c0)) c0 s (ksR1 k) (ModUpSt_sim b WB HD) SH (proj1 PO)) as L.
    match type of L with ?X -> _ => assert (K : X) end. { intros id Hid. apply (in_pool c0 k o 40 O PO (fun i H => HK' i (or_introl H)) id Hid). }
    specialize (L K). clear K. destruct (liftCt (ModUpQtoR b) _ c0) as [c0R|], (liftSt (ModUpQtoRSt b) _ c0 s (ksR1 k)) as [[[s1 R1] c0R']|]; cbn [rsim rbind] in L |- *; try contradiction.
    2:{ rewrite bsolo_end by (cbn [btP]; lia). reflexivity. }
    destruct L as (_ & S1 & PK & F0 & _).
    apply (rest1 S o s1 c0 c1 c0R out (KSet (ksK k) R1 (ksR2 k) (ksH0 k) (ksH1 k)) c0 c1 O S1 (pools_R1 k R1 PO PK) W0 W1 EO HK' F0).
  Qed.

  (** *** sizes *)
  Definition btgood (k : bkeyset N) (t : bthread N) : Prop :=
    order_ok (btO t) /\ wfq (bt0 t) /\ wfq (bt1 t) /\ (forall id, In id (bcall_parties t) -> mget seq_dec (ksK k) id <> None) /\ ((btP t < 5)%nat -> bsh b (btE t)).
  Lemma ready_btgood k t : bcall_ready b k t -> btgood k t.
  Proof.
    intros (o & s & c0 & c1 & ET & O & SH & W0 & W1 & HK). unfold btgood. rewrite ET in HK |- *. unfold bbegin in *. cbn [btO bt0 bt1 btE btP]. split; [exact O|]. split; [exact W0|]. split; [exact W1|]. split; [exact HK|]. intros _. exact SH.
  Qed.
  Lemma bexec_sized (t : bthread N) k : btgood k t -> bpools_ok b k ->
    let t' := fst (bexec b crs t k) in let k' := snd (bexec b crs t k) in
    btgood k' t' /\ bpools_ok b k' /\ ksK k' = ksK k /\ btS t' = btS t.
  Proof.
    intros (O & W0 & W1 & HK & SH) PO. cbv zeta. unfold bexec. destruct (Nat.leb_spec 5 (btP t)) as [L5|L5]; [cbn [fst snd]; split; [split; [exact O|split; [exact W0|split; [exact W1|split; [exact HK|intros H; lia]]]]|tauto]|].
    specialize (SH L5). destruct (btP t) as [|[|[|[|ph]]]]; cbn [bstep].
    - destruct (bNewBinary _ _ _ _) as [out|]; cbn [rbind].
      2:{ cbn [fst snd]. split; [split; [exact O|split; [exact W0|split; [exact W1|split; [exact HK|cbn [btP]; lia]]]]|tauto]. }
      pose proof (lift_step (ModUpQtoR b) (ModUpQtoRSt b) (btO t 40%nat (keys (bt0 t))) (bt0 t) (btE t) (ksR1 k) (ModUpSt_sim b WB HD) SH (proj1 PO)) as L.
      match type of L with ?X -> _ => assert (K : X) end. { intros id Hid. apply (in_pool (bt0 t) k (btO t) 40 O PO (fun i H => HK i (in_or_app _ _ _ (or_introl H))) id Hid). }
      specialize (L K). clear K. destruct (liftCt (ModUpQtoR b) _ (bt0 t)) as [c0R|], (liftSt (ModUpQtoRSt b) _ (bt0 t) (btE t) (ksR1 k)) as [[[s1 R1] c0R']|]; cbn [rsim rbind fst snd] in L |- *; try contradiction.
      + destruct L as (_ & S1 & PK & _). split; [|split; [apply pools_R1; assumption|split; reflexivity]]. split; [exact O|]. split; [exact W0|]. split; [exact W1|]. split; [exact HK|]. intros _. exact S1.
      + split; [split; [exact O|split; [exact W0|split; [exact W1|split; [exact HK|cbn [btP]; lia]]]]|tauto].
    - pose proof (lift_step (Rescale b) (RescaleSt b) (btO t 41%nat (keys (bt1 t))) (bt1 t) (btE t) (ksR2 k) (RescaleSt_sim b WB HD) SH (proj1 (proj2 PO))) as L.
      match type of L with ?X -> _ => assert (K : X) end. { intros id Hid. apply (in_pool (bt1 t) k (btO t) 41 O PO (fun i H => HK i (in_or_app _ _ _ (or_intror H))) id Hid). }
      specialize (L K). clear K. destruct (liftCt (Rescale b) _ (bt1 t)) as [c0R|], (liftSt (RescaleSt b) _ (bt1 t) (btE t) (ksR2 k)) as [[[s1 R1] c0R']|]; cbn [rsim rbind fst snd] in L |- *; try contradiction.
      + destruct L as (_ & S1 & PK & _). split; [|split; [apply pools_R2; assumption|split; reflexivity]]. split; [exact O|]. split; [exact W0|]. split; [exact W1|]. split; [exact HK|]. intros _. exact S1.
      + split; [split; [exact O|split; [exact W0|split; [exact W1|split; [exact HK|cbn [btP]; lia]]]]|tauto].
    - assert (PN : forall a, btgood k (BTh (btS t) (bt0 t) (bt1 t) (btO t) (btE t) 5 (btN t) a)) by (intros a; split; [exact O|split; [exact W0|split; [exact W1|split; [exact HK|cbn [btP]; lia]]]]).
      destruct (fetch _ _) as [c0R|]; cbn [rbind]; [|cbn [fst snd]; split; [apply PN|tauto]].
      destruct (IDSetOf _ _) as [ids0|] eqn:E0; cbn [rbind]; [|cbn [fst snd]; split; [apply PN|tauto]]. rewrite (shape_level _ _ (wfct_shape pp _ _ W0)). cbn [rbind].
      pose proof (ids_of_parties (btO t) _ _ _ O E0) as P0.
      pose proof (bhoistSt_sim b WB HD (maxLevel pp) (btO t 44%nat (keys ids0)) c0R (btE t) (ksH0 k) (maxn b WB HD) SH (proj1 (proj2 (proj2 PO)))) as H0.
      match type of H0 with ?X -> _ => assert (K : X) end. { intros id Hid. apply (Permutation_in _ (O 44%nat _)), P0 in Hid. apply PO. apply HK. apply in_or_app. left. exact Hid. }
      specialize (H0 K). clear K. destruct (hoistCt _ _ _ _) as [h|], (bhoistSt _ _ _ _ _ _) as [[s1 H']|]; cbn [rsim rbind fst snd] in H0 |- *; try contradiction; [|split; [apply PN|tauto]].
      destruct H0 as (S1 & HK0 & _). split; [|split; [apply pools_H0; assumption|split; reflexivity]]. split; [exact O|]. split; [exact W0|]. split; [exact W1|]. split; [exact HK|]. intros _. exact S1.
    - assert (PN : forall a, btgood k (BTh (btS t) (bt0 t) (bt1 t) (btO t) (btE t) 5 (btN t) a)) by (intros a; split; [exact O|split; [exact W0|split; [exact W1|split; [exact HK|cbn [btP]; lia]]]]).
      destruct (fetch _ _) as [c0R|]; cbn [rbind]; [|cbn [fst snd]; split; [apply PN|tauto]].
      destruct (IDSetOf _ _) as [ids0|] eqn:E0; cbn [rbind]; [|cbn [fst snd]; split; [apply PN|tauto]]. rewrite (shape_level _ _ (wfct_shape pp _ _ W1)). cbn [rbind].
      pose proof (ids_of_parties (btO t) _ _ _ O E0) as P0.
      pose proof (bhoistSt_sim b WB HD (maxLevel pp) (btO t 45%nat (keys ids0)) c0R (btE t) (ksH1 k) (maxn b WB HD) SH (proj1 (proj2 (proj2 (proj2 PO))))) as H0.
      match type of H0 with ?X -> _ => assert (K : X) end. { intros id Hid. apply (Permutation_in _ (O 45%nat _)), P0 in Hid. apply PO. apply HK. apply in_or_app. right. exact Hid. }
      specialize (H0 K). clear K. destruct (hoistCt _ _ _ _) as [h|], (bhoistSt _ _ _ _ _ _) as [[s1 H']|]; cbn [rsim rbind fst snd] in H0 |- *; try contradiction; [|split; [apply PN|tauto]].
      destruct H0 as (S1 & HK0 & _). split; [|split; [apply pools_H1; assumption|split; reflexivity]]. split; [exact O|]. split; [exact W0|]. split; [exact W1|]. split; [exact HK|]. intros _. exact S1.
    - assert (PN : forall s' a a', btgood k (BTh (btS t) (bt0 t) (bt1 t) (btO t) s' 5 a a')) by (intros s' a a'; split; [exact O|split; [exact W0|split; [exact W1|split; [exact HK|cbn [btP]; lia]]]]).
      destruct (fetch _ _) as [c0R|]; cbn [rbind]; [|cbn [fst snd]; split; [apply PN|tauto]]. destruct (fetch _ _) as [c1R|]; cbn [rbind]; [|cbn [fst snd]; split; [apply PN|tauto]].
      destruct (bMulSt _ _ _ _ _ _ _ _ _ _ _) as [[s1 c]|]; cbn [rbind fst snd]; (split; [apply PN|tauto]).
  Qed.

  (** *** schedules *)
  Notation bsched := (bschedule b crs).
  Lemma bsched_app s1 s2 ts ks : bsched (s1 ++ s2) ts ks = bsched s2 (fst (bsched s1 ts ks)) (snd (bsched s1 ts ks)).
  Proof.
    revert ts ks. induction s1 as [|i s1 IH]; intros ts ks; cbn; [reflexivity|]. destruct (nth_error ts i) as [t|]; [|apply IH]. destruct (nth_error ks (btS t)) as [k|]; [|apply IH]. destruct (bexec b crs t k). apply IH.
  Qed.
  Lemma bsched_other sch i : ~ In i sch -> forall ts ks, nth_error (fst (bsched sch ts ks)) i = nth_error ts i.
  Proof.
    induction sch as [|j sch IH]; intros NI ts ks; cbn [bschedule]; [reflexivity|]. cbn in NI. destruct (nth_error ts j) as [t|]; [|apply IH; tauto]. destruct (nth_error ks (btS t)) as [k|]; [|apply IH; tauto].
    destruct (bexec b crs t k) as [t' k']. rewrite IH by tauto. rewrite nth_set. destruct (Nat.eqb_spec j i); [tauto|reflexivity].
  Qed.
  Lemma bexec_S t k : btS (fst (bexec b crs t k)) = btS t.
  Proof. unfold bexec. destruct (5 <=? btP t)%nat; [reflexivity|]. destruct (bstep _ _ _ _ _ _ _ _ _) as [[[[s k'] out] [c|]]|]; reflexivity. Qed.
  Lemma bsolo_call m t k : btS (fst (bsolo m (t, k))) = btS t.
  Proof. induction m as [|m IH]; [reflexivity|]. rewrite bsolo_S, bexec_S. exact IH. Qed.
  Lemma bsched_ended sch i : forall ts ks t, nth_error ts i = Some t -> (5 <= btP t)%nat -> nth_error (fst (bsched sch ts ks)) i = Some t.
  Proof.
    induction sch as [|j sch IH]; intros ts ks t E H; cbn [bschedule]; [exact E|]. destruct (nth_error ts j) as [u|] eqn:Ej; [|apply IH; assumption]. destruct (nth_error ks (btS u)) as [k|]; [|apply IH; assumption].
    destruct (bexec b crs u k) as [u' k'] eqn:EX. apply IH; [|exact H]. rewrite nth_set. destruct (Nat.eqb_spec j i) as [->|]; [|exact E]. rewrite Ej. rewrite E in Ej. injection Ej as <-. rewrite bexec_end in EX by exact H. injection EX as <- <-. reflexivity.
  Qed.
  Definition binv (ts : list (bthread N)) (ks : list (bkeyset N)) : Prop :=
    (forall j t k, nth_error ts j = Some t -> nth_error ks (btS t) = Some k -> btgood k t) /\ forall s k, nth_error ks s = Some k -> bpools_ok b k.
  Lemma btgood_K k k' t : ksK k' = ksK k -> btgood k t -> btgood k' t.
  Proof. intros E (A & B & C & D & F). unfold btgood. rewrite E. tauto. Qed.
  Lemma bsched_sized sch : forall ts ks, binv ts ks -> binv (fst (bsched sch ts ks)) (snd (bsched sch ts ks)) /\
    forall s k, nth_error ks s = Some k -> exists k', nth_error (snd (bsched sch ts ks)) s = Some k' /\ ksK k' = ksK k.
  Proof.
    induction sch as [|i sch IH]; intros ts ks [I1 I2]; cbn [bschedule]; [split; [split; assumption|intros s k E; exists k; split; [exact E|reflexivity]]|].
    destruct (nth_error ts i) as [t|] eqn:Et; [|apply IH; split; assumption]. destruct (nth_error ks (btS t)) as [k|] eqn:Ek; [|apply IH; split; assumption].
    pose proof (bexec_sized t k (I1 _ _ _ Et Ek) (I2 _ _ Ek)) as X. cbv zeta in X. destruct (bexec b crs t k) as [t' k']. cbn [fst snd] in X. destruct X as (X1 & X2 & X3 & X4).
    assert (IV : binv (set_nth i t' ts) (set_nth (btS t) k' ks)).
    { split.
      - intros j u ku. rewrite !nth_set. intros Eu Eku.
        assert (Gu : forall k0, nth_error ks (btS u) = Some k0 -> btgood k0 u).
        { destruct (Nat.eqb_spec i j) as [->|NE].
          - rewrite Et in Eu. injection Eu as <-. rewrite X4, Ek. intros k0 E0. injection E0 as <-. apply (btgood_K k'); [symmetry; exact X3|exact X1].
          - intros k0 E0. apply (I1 j); assumption. }
        destruct (Nat.eqb_spec (btS t) (btS u)) as [EE|NE].
        + rewrite Ek in Eku. injection Eku as <-. apply (btgood_K k); [exact X3|]. apply Gu. rewrite <- EE. exact Ek.
        + apply Gu. exact Eku.
      - intros s ku. rewrite nth_set. destruct (Nat.eqb_spec (btS t) s) as [<-|NE]; [rewrite Ek; intros E; injection E as <-; exact X2|apply I2]. }
    destruct (IH _ _ IV) as [Y1 Y2]. split; [exact Y1|]. intros s ku Es. destruct (Nat.eq_dec (btS t) s) as [<-|NE].
    - destruct (Y2 (btS t) k') as (k2 & A & B); [rewrite nth_set, Nat.eqb_refl, Ek; reflexivity|]. exists k2. split; [exact A|]. rewrite B, X3. congruence.
    - apply Y2. rewrite nth_set. destruct (Nat.eqb_spec (btS t) s); [congruence|exact Es].
  Qed.
  Lemma bsched_S sch : forall ts ks j, option_map btS (nth_error (fst (bsched sch ts ks)) j) = option_map btS (nth_error ts j).
  Proof.
    induction sch as [|i sch IH]; intros ts ks j; cbn [bschedule]; [reflexivity|]. destruct (nth_error ts i) as [t|] eqn:Et; [|apply IH]. destruct (nth_error ks (btS t)) as [k|]; [|apply IH].
    pose proof (bexec_S t k) as ES. destruct (bexec b crs t k) as [t' k']. cbn [fst] in ES. rewrite IH, nth_set. destruct (Nat.eqb_spec i j) as [->|]; [rewrite Et; cbn; congruence|reflexivity].
  Qed.
  (** a call that is the only one using its key set *)
  Lemma bsched_excl sch i : forall ts ks t k, nth_error ts i = Some t -> nth_error ks (btS t) = Some k ->
    (forall j tj, In j sch -> nth_error ts j = Some tj -> j = i \/ btS tj <> btS t) ->
    nth_error (fst (bsched sch ts ks)) i = Some (fst (bsolo (count_occ Nat.eq_dec sch i) (t, k))) /\ nth_error (snd (bsched sch ts ks)) (btS t) = Some (snd (bsolo (count_occ Nat.eq_dec sch i) (t, k))).
  Proof.
    induction sch as [|j sch IH]; intros ts ks t k Et Ek H; cbn [bschedule count_occ]; [split; assumption|].
    destruct (Nat.eq_dec j i) as [->|NE].
    - rewrite Et, Ek. rewrite bsolo_1. pose proof (bexec_S t k) as ES. destruct (bexec b crs t k) as [t' k'] eqn:EX. cbn [fst] in ES. rewrite <- ES. apply IH.
      + rewrite nth_set, Nat.eqb_refl, Et. reflexivity.
      + rewrite ES, nth_set, Nat.eqb_refl, Ek. reflexivity.
      + intros j tj Hj. rewrite nth_set. destruct (Nat.eqb_spec i j) as [->|NE]; [auto|]. intros Etj. rewrite ES. apply (H j tj (or_intror Hj) Etj).
    - destruct (nth_error ts j) as [u|] eqn:Eu; [|apply IH; trivial; intros; apply H; [right; assumption|assumption]].
      destruct (H j u (or_introl eq_refl) Eu) as [C|NS]; [congruence|].
      destruct (nth_error ks (btS u)) as [ku|]; [|apply IH; trivial; intros; apply H; [right; assumption|assumption]].
      pose proof (bexec_S u ku) as ES. destruct (bexec b crs u ku) as [u' ku']. cbn [fst] in ES. apply IH.
      + rewrite nth_set. destruct (Nat.eqb_spec j i); [congruence|exact Et].
      + rewrite nth_set. destruct (Nat.eqb_spec (btS u) (btS t)); [congruence|exact Ek].
      + intros j' tj Hj. rewrite nth_set. destruct (Nat.eqb_spec j j') as [<-|NE']; [rewrite Eu; intros E; injection E as <-; rewrite ES; right; exact NS|]. intros Etj. apply (H j' tj (or_intror Hj) Etj).
  Qed.
  Lemma bexec_out t k : (btR t <> None -> (5 <= btP t)%nat) -> btR (fst (bexec b crs t k)) <> None -> (5 <= btP (fst (bexec b crs t k)))%nat.
  Proof. intros H. unfold bexec. destruct (Nat.leb_spec 5 (btP t)); [auto|]. destruct (bstep _ _ _ _ _ _ _ _ _) as [[[[s k'] out] [c|]]|]; cbn [fst btR btP]; intros X; [lia|congruence|lia]. Qed.
  Lemma bsolo_out m t k : btR t = None -> btR (fst (bsolo m (t, k))) <> None -> (5 <= btP (fst (bsolo m (t, k))))%nat.
  Proof. intros H. induction m as [|m IH]; [cbn [bsolo fst]; congruence|]. rewrite bsolo_S. apply bexec_out. exact IH. Qed.
  Lemma bsolo_same m k' t k r : btR t = None -> btR (fst (bsolo m (t, k))) = Some r -> bsolo (m + k') (t, k) = bsolo m (t, k).
  Proof.
    intros H0 H. rewrite bsolo_add. destruct (bsolo m (t, k)) as [t' k2] eqn:E. apply bsolo_end. pose proof (bsolo_out m t k H0) as X. rewrite E in X. cbn [fst] in X, H. apply X. congruence.
  Qed.
End Steps.

(** ** C54 *)
(** the hypotheses: every call is about to start, and the buffers of every key set are those it was created with or what earlier calls left *)
Definition bready {N} (b : bparams) (ts : list (bthread N)) (ks : list (bkeyset N)) : Prop :=
  (forall j t k, nth_error ts j = Some t -> nth_error ks (btS t) = Some k -> bcall_ready b k t) /\ forall s k, nth_error ks s = Some k -> bpools_ok b k.
(** whatever the other calls did before, a call returns its own product if, from its first step to its last, no other call that uses the same key set makes a step *)
Theorem C54_exclusive : forall N b crs (ts : list (bthread N)) ks i t k sch1 sch2, wfb N b -> (length (bQ b) mod alpha (ppQ b) = 0)%nat -> bready b ts ks ->
  nth_error ts i = Some t -> nth_error ks (btS t) = Some k -> ~ In i sch1 -> (forall j tj, In j sch2 -> nth_error ts j = Some tj -> j = i \/ btS tj <> btS t) ->
  (forall r, breturned b crs (sch1 ++ sch2) ts ks i = Some r -> r = bown b crs k t) /\
  ((5 <= count_occ Nat.eq_dec sch2 i)%nat -> forall sch3, breturned b crs (sch1 ++ sch2 ++ sch3) ts ks i = Some (bown b crs k t)).
Proof.
  intros N b crs ts ks i t k sch1 sch2 WB HD [RD PO] Et Ek N1 EX.
  assert (IV : binv b ts ks) by (split; [intros j u ku Eu Eku; apply (ready_btgood b); apply (RD j); assumption|exact PO]).
  destruct (bsched_sized b WB HD crs sch1 ts ks IV) as [[J1 J2] KK]. destruct (KK _ _ Ek) as (k1 & Ek1 & EK).
  set (ts1 := fst (bschedule b crs sch1 ts ks)) in *. set (ks1 := snd (bschedule b crs sch1 ts ks)) in *.
  assert (Et1 : nth_error ts1 i = Some t) by (unfold ts1; rewrite bsched_other by exact N1; exact Et).
  assert (EX1 : forall j tj, In j sch2 -> nth_error ts1 j = Some tj -> j = i \/ btS tj <> btS t).
  { intros j tj Hj Ej. pose proof (bsched_S b crs sch1 ts ks j) as S. fold ts1 in S. rewrite Ej in S. cbn in S. destruct (nth_error ts j) as [u|] eqn:Eu; cbn in S; [|discriminate]. injection S as ->. apply (EX j u Hj Eu). }
  destruct (bsched_excl b crs sch2 i ts1 ks1 t k1 Et1 Ek1 EX1) as [X _].
  pose proof (RD i t k Et Ek) as R0. assert (R1 : bcall_ready b k1 t) by (destruct R0 as (o & s & c0 & c1 & R0); exists o, s, c0, c1; rewrite EK; exact R0).
  assert (T0 : btR t = None) by (destruct R0 as (o & s & c0 & c1 & E & _); rewrite E; reflexivity).
  pose proof (bsolo_ok b WB HD crs t k1 R1 (J2 _ _ Ek1)) as SO. assert (OW : bown b crs k1 t = bown b crs k t) by (unfold bown; rewrite EK; reflexivity). rewrite OW in SO.
  split.
  - intros r. unfold breturned. rewrite bsched_app. fold ts1 ks1. rewrite X. intros H. pose proof (bsolo_same b HD crs _ 5 t k1 r T0 H) as Y. rewrite Nat.add_comm in Y.
    rewrite (bsolo_same b HD crs 5 _ t k1 _ T0 SO) in Y. rewrite <- Y in H. rewrite SO in H. congruence.
  - intros C sch3. unfold breturned. rewrite !bsched_app. fold ts1 ks1. replace (count_occ Nat.eq_dec sch2 i) with (5 + (count_occ Nat.eq_dec sch2 i - 5))%nat in X by lia. rewrite (bsolo_same b HD crs 5 _ t k1 _ T0 SO) in X.
    rewrite (bsched_ended b HD crs sch3 i _ _ _ X); [exact SO|]. apply (bsolo_out b HD crs); [exact T0|]. rewrite SO. discriminate.
Qed.
Print Assumptions C54_exclusive.

Section Mix.
  Context {N : nat} (b : bparams) (WB : wfb N b) (HD : (length (bQ b) mod alpha (ppQ b) = 0)%nat) (crs : crsT N).
  Notation R := (R N). Notation ct := (ctT N). Notation n := (length (bQ b)). Notation pp := (ppQ b).
  Notation wfq := (wfct pp (maxLevel pp) false).
  Lemma lift_total (conv : list R -> res (list R)) l (c : ct) : (forall p, wfpoly pp (maxLevel pp) false p -> exists r, conv (prows p) = Ok r) -> wfq c -> incl l (keys c) -> exists v, liftCt conv l c = Ok v.
  Proof.
    intros HC (_ & _ & W) HI. unfold liftCt. generalize (nil : ct). induction l as [|x l IH]; intros acc; cbn [rfold]; [eexists; reflexivity|].
    unfold cget. destruct (mget seq_dec c x) as [p|] eqn:E; [|exfalso; apply (proj2 (mget_In_keys seq_dec c x) (HI x (or_introl eq_refl))); exact E]. cbn [rbind]. destruct (HC p (W _ _ E)) as (r & ->). cbn [rbind]. apply IH. intros y Hy. apply HI. right. exact Hy.
  Qed.
  Lemma rows_in (p : poly N) : wfpoly pp (maxLevel pp) false p -> (n <= length (prows p))%nat /\ forall j, (j < n)%nat -> inr (Qi pp j) (row (prows p) j).
  Proof. intros (A & _ & B). pose proof (maxn b WB HD) as M. unfold maxLevel in *. cbn [ppQ Qm] in *. split; [lia|]. intros j Hj. apply B. lia. Qed.
  Lemma up_total (p : poly N) : wfpoly pp (maxLevel pp) false p -> exists r, ModUpQtoR b (prows p) = Ok r.
  Proof. intros H. destruct (rows_in p H) as [A B]. destruct (ModUpQtoR_ok b WB (prows p) A B) as (r & _ & E & _). exists r. exact E. Qed.
  Lemma rs_total (p : poly N) : wfpoly pp (maxLevel pp) false p -> exists r, Rescale b (prows p) = Ok r.
  Proof. intros H. destruct (rows_in p H) as [A B]. destruct (Rescale_ok b WB (prows p) A B) as (r & _ & _ & _ & E & _). exists r. exact E. Qed.
  (** lifting one operand and then another into the same pool leaves the lift of the mixture *)
  Lemma mix_fetch (conv : list R -> res (list R)) l l' (c c' v : ct) (pool pool1 pool2 : gomap string (list R)) :
    (forall id, (In id l -> forall p r, cget c id = Ok p -> conv (prows p) = Ok r -> mget seq_dec pool1 id = Some r) /\ (~ In id l -> mget seq_dec pool1 id = mget seq_dec pool id)) ->
    (forall id, (In id l' -> forall p r, cget c' id = Ok p -> conv (prows p) = Ok r -> mget seq_dec pool2 id = Some r) /\ (~ In id l' -> mget seq_dec pool2 id = mget seq_dec pool1 id)) ->
    (forall id, In id l' <-> In id (keys c')) -> liftCt conv l (mix c c') = Ok v -> fetch pool2 l = Ok v.
  Proof.
    intros F1 F2 HL E. apply (fetch_lift conv l (mix c c') v pool2 E). intros id p r Hid. unfold cget at 1. rewrite mix_get. destruct (mget seq_dec c id) as [p0|] eqn:E0; [|discriminate].
    destruct (mget seq_dec c' id) as [q|] eqn:E1; intros X Er; injection X as <-.
    - apply (proj1 (F2 id)) with (p := q); [|unfold cget; rewrite E1; reflexivity|exact Er]. apply HL. apply (mget_In_keys seq_dec). congruence.
    - rewrite (proj2 (F2 id)); [|intros C; apply HL, (mget_In_keys seq_dec) in C; contradiction]. apply (proj1 (F1 id) Hid) with (p := p0); [unfold cget; rewrite E0; reflexivity|exact Er].
  Qed.
  Lemma new_mix o (c0 c1 c0' c1' : ct) : bNewBinary pp o (mix c0 c0') (mix c1 c1') = bNewBinary pp o c0 c1.
  Proof. unfold bNewBinary. rewrite (ids_keys (o 20%nat) (mix c0 c0') c0), (ids_keys (o 21%nat) (mix c1 c1') c1) by apply mix_keys. reflexivity. Qed.
  Lemma step0 (t : bthread N) (k : bkeyset N) : btgood b k t -> bpools_ok b k -> btP t = 0%nat ->
    exists s R1 out, bexec b crs t k = (BTh (btS t) (bt0 t) (bt1 t) (btO t) s 1 out None, KSet (ksK k) R1 (ksR2 k) (ksH0 k) (ksH1 k)) /\ bsh b s /\ pkeep b (ksR1 k) R1 /\ bNewBinary pp (btO t) (bt0 t) (bt1 t) = Ok out /\
      forall id, (In id (btO t 40%nat (keys (bt0 t))) -> forall p r, cget (bt0 t) id = Ok p -> ModUpQtoR b (prows p) = Ok r -> mget seq_dec R1 id = Some r) /\ (~ In id (btO t 40%nat (keys (bt0 t))) -> mget seq_dec R1 id = mget seq_dec (ksR1 k) id).
  Proof.
    intros (O & W0 & W1 & HK & SH) PO EP. rewrite EP in SH. specialize (SH ltac:(lia)). unfold bexec. rewrite EP. cbn [Nat.leb bstep].
    destruct (bNewBinary_ok pp (wf_ppQ b WB) (btO t) (bt0 t) (bt1 t) O) as (out & EO & _ & _); [apply W0|]. rewrite EO. cbn [rbind].
    pose proof (lift_step b (ModUpQtoR b) (ModUpQtoRSt b) (btO t 40%nat (keys (bt0 t))) (bt0 t) (btE t) (ksR1 k) (ModUpSt_sim b WB HD) SH (proj1 PO)) as L.
    match type of L with ?X -> _ => assert (K : X) end. { intros id Hid. apply (in_pool b (bt0 t) k (btO t) 40 O PO (fun i H => HK i (in_or_app _ _ _ (or_introl H))) id Hid). }
    specialize (L K). clear K. destruct (lift_total (ModUpQtoR b) (btO t 40%nat (keys (bt0 t))) (bt0 t) up_total W0) as (v & EV); [intros x Hx; apply (Permutation_in _ (O 40%nat _)); exact Hx|]. rewrite EV in L.
    destruct (liftSt (ModUpQtoRSt b) _ (bt0 t) (btE t) (ksR1 k)) as [[[s1 R1] c0R']|]; cbn [rsim rbind] in L |- *; [|contradiction]. destruct L as (_ & S1 & PK & _ & F).
    exists s1, R1, out. split; [reflexivity|]. split; [exact S1|]. split; [exact PK|]. split; [reflexivity|exact F].
  Qed.
  Lemma step1 (t : bthread N) (k : bkeyset N) : btgood b k t -> bpools_ok b k -> btP t = 1%nat -> btR t = None ->
    exists s R2, bexec b crs t k = (BTh (btS t) (bt0 t) (bt1 t) (btO t) s 2 (btN t) None, KSet (ksK k) (ksR1 k) R2 (ksH0 k) (ksH1 k)) /\ bsh b s /\ pkeep b (ksR2 k) R2 /\
      forall id, (In id (btO t 41%nat (keys (bt1 t))) -> forall p r, cget (bt1 t) id = Ok p -> Rescale b (prows p) = Ok r -> mget seq_dec R2 id = Some r) /\ (~ In id (btO t 41%nat (keys (bt1 t))) -> mget seq_dec R2 id = mget seq_dec (ksR2 k) id).
  Proof.
    intros (O & W0 & W1 & HK & SH) PO EP _. rewrite EP in SH. specialize (SH ltac:(lia)). unfold bexec. rewrite EP. cbn [Nat.leb bstep].
    pose proof (lift_step b (Rescale b) (RescaleSt b) (btO t 41%nat (keys (bt1 t))) (bt1 t) (btE t) (ksR2 k) (RescaleSt_sim b WB HD) SH (proj1 (proj2 PO))) as L.
    match type of L with ?X -> _ => assert (K : X) end. { intros id Hid. apply (in_pool b (bt1 t) k (btO t) 41 O PO (fun i H => HK i (in_or_app _ _ _ (or_intror H))) id Hid). }
    specialize (L K). clear K. destruct (lift_total (Rescale b) (btO t 41%nat (keys (bt1 t))) (bt1 t) rs_total W1) as (v & EV); [intros x Hx; apply (Permutation_in _ (O 41%nat _)); exact Hx|]. rewrite EV in L.
    destruct (liftSt (RescaleSt b) _ (bt1 t) (btE t) (ksR2 k)) as [[[s1 R1] c0R']|]; cbn [rsim rbind] in L |- *; [|contradiction]. destruct L as (_ & S1 & PK & _ & F).
    exists s1, R1. split; [reflexivity|]. split; [exact S1|]. split; [exact PK|exact F].
  Qed.
  Lemma order_in (o : order) m (c : ct) : order_ok o -> forall id, In id (o m (keys c)) <-> In id (keys c).
  Proof. intros O id. split; intros H; [apply (Permutation_in _ (O m _)); exact H|apply (Permutation_in _ (Permutation_sym (O m _))); exact H]. Qed.
  Lemma pure_mix o (c0 c1 c0' c1' : ct) rs out c0R c1R : wfq c0 -> wfq c1 -> wfq c0' -> wfq c1' -> bNewBinary pp o c0 c1 = Ok out -> liftCt (ModUpQtoR b) (o 40%nat (keys c0)) (mix c0 c0') = Ok c0R -> liftCt (Rescale b) (o 41%nat (keys c1)) (mix c1 c1') = Ok c1R ->
    bMulRelinNew b o crs (mix c0 c0') (mix c1 c1') rs =
     (ids0 <- IDSetOf (o 42%nat) c0 ;; ids1 <- IDSetOf (o 43%nat) c1 ;; l0 <- ctLevel c0 ;; h0 <- hoistCt b l0 (o 44%nat (keys ids0)) c0R ;; l1 <- ctLevel c1 ;; h1 <- hoistCt b l1 (o 45%nat (keys ids1)) c1R ;;
      MulAndRelinBFVHoisted b o crs c0R c1R (Some h0) (Some h1) rs out).
  Proof.
    intros W0 W1 W0' W1' EO E0 E1. unfold bMulRelinNew. rewrite new_mix, EO. cbn [rbind]. unfold bMulRelinHoisted. rewrite !mix_keys, E0, E1. cbn [rbind].
    rewrite (ids_keys (o 42%nat) (mix c0 c0') c0), (ids_keys (o 43%nat) (mix c1 c1') c1) by apply mix_keys.
    rewrite (shape_level _ _ (wfct_shape pp _ _ (mix_wf pp _ _ _ W0 W0'))), (shape_level _ _ (wfct_shape pp _ _ (mix_wf pp _ _ _ W1 W1'))), (shape_level _ _ (wfct_shape pp _ _ W0)), (shape_level _ _ (wfct_shape pp _ _ W1)). reflexivity.
  Qed.
  Lemma ready_P (k : bkeyset N) (t : bthread N) : bcall_ready b k t -> btP t = 0%nat /\ btR t = None.
  Proof. intros (o & s & c0 & c1 & E & _). rewrite E. split; reflexivity. Qed.
End Mix.
Lemma mix_self {N} (c : ctT N) : mwf c -> mix c c = c.
Proof.
  intros W. unfold mix. transitivity (map (fun x => x) c); [|apply map_id]. apply map_ext_in. intros [x p] H. cbn [fst snd]. assert (E : mget seq_dec c x = Some p).
  { unfold mwf, keys in W. revert W H. clear. induction c as [|[y q] c IH]; [intros _ []|]. cbn [map fst mget]. intros W [E|H]; [injection E as -> ->; destruct (seq_dec x x); congruence|]. inversion W as [|? ? NI ND]; subst.
    destruct (seq_dec x y) as [->|]; [exfalso; apply NI; apply (in_map fst) in H; exact H|apply IH; assumption]. }
  rewrite E. reflexivity.
Qed.

(** two calls on one key set, whatever their parties: if the other call lifts its first operand after this one did, this call multiplies the mixture of the two first operands
    (its own party components where the other operand has none of that party, and always the other call's component "0") *)
Theorem C54_interference : forall N b crs (ts : list (bthread N)) ks i j t u k, wfb N b -> (length (bQ b) mod alpha (ppQ b) = 0)%nat -> bready b ts ks -> i <> j ->
  nth_error ts i = Some t -> nth_error ts j = Some u -> btS u = btS t -> nth_error ks (btS t) = Some k ->
  breturned b crs [i; j; i; i; i; i] ts ks i = Some (bMulRelinNew b (btO t) crs (mix (bt0 t) (bt0 u)) (bt1 t) (ksK k)).
Proof.
  intros N b crs ts ks i j t u k WB HD [RD PO] NE Et Eu ES Ek. pose proof (RD i t k Et Ek) as Rt. pose proof (RD j u k Eu ltac:(rewrite ES; exact Ek)) as Ru. pose proof (PO _ _ Ek) as P0.
  pose proof (ready_btgood b k t Rt) as Gt. pose proof (ready_btgood b k u Ru) as Gu. destruct (ready_P b k t Rt) as [Pt Nt]. destruct (ready_P b k u Ru) as [Pu Nu].
  destruct (step0 b WB HD crs t k Gt P0 Pt) as (s1 & R1 & out & X1 & S1 & PK1 & EO & F1).
  set (k1 := KSet (ksK k) R1 (ksR2 k) (ksH0 k) (ksH1 k)) in *. pose proof (pools_R1 b k R1 P0 PK1) as P1. fold k1 in P1.
  destruct (step0 b WB HD crs u k1 (btgood_K b k k1 u eq_refl Gu) P1 Pu) as (s2 & R1' & out' & X2 & S2 & PK2 & EO' & F2). cbn [ksR1 k1] in F2, PK2.
  set (k2 := KSet (ksK k1) R1' (ksR2 k1) (ksH0 k1) (ksH1 k1)) in *. pose proof (pools_R1 b k1 R1' P1 PK2) as P2. fold k2 in P2.
  destruct Gt as (O & W0 & W1 & HK & SH). destruct Gu as (O' & W0' & W1' & HK' & SH').
  unfold breturned. cbn [bschedule]. rewrite Et, Ek, X1. rewrite nth_set. destruct (Nat.eqb_spec i j) as [|_]; [contradiction|]. rewrite Eu, ES. rewrite nth_set, Nat.eqb_refl, Ek, X2.
  set (t1 := BTh (btS t) (bt0 t) (bt1 t) (btO t) s1 1 out None) in *. set (u1 := BTh (btS u) (bt0 u) (bt1 u) (btO u) s2 1 out' None) in *.
  set (ts2 := set_nth j u1 (set_nth i t1 ts)). set (ks2 := set_nth (btS t) k2 (set_nth (btS t) k1 ks)).
  change (match nth_error (fst (bschedule b crs [i; i; i; i] ts2 ks2)) i with Some t0 => btR t0 | None => None end = Some (bMulRelinNew b (btO t) crs (mix (bt0 t) (bt0 u)) (bt1 t) (ksK k))).
  assert (E2 : nth_error ts2 i = Some t1). { unfold ts2. rewrite nth_set. destruct (Nat.eqb_spec j i); [congruence|]. rewrite nth_set, Nat.eqb_refl, Et. reflexivity. }
  assert (K2 : nth_error ks2 (btS t1) = Some k2). { unfold ks2. cbn [btS t1]. rewrite nth_set, Nat.eqb_refl, nth_set, Nat.eqb_refl, Ek. reflexivity. }
  destruct (bsched_excl b crs [i; i; i; i] i ts2 ks2 t1 k2 E2 K2) as [X _]. { intros x tx Hx _. left. cbn in Hx. clear - Hx. intuition congruence. }
  rewrite X. replace (count_occ Nat.eq_dec [i; i; i; i] i) with 4%nat by (cbn [count_occ]; destruct (Nat.eq_dec i i); [reflexivity|congruence]).
  destruct (lift_total b (ModUpQtoR b) (btO t 40%nat (keys (bt0 t))) (mix (bt0 t) (bt0 u)) (up_total b WB HD) (mix_wf _ _ _ _ W0 W0')) as (c0R & EV); [rewrite mix_keys; intros x Hx; apply (Permutation_in _ (O 40%nat _)); exact Hx|].
  pose proof (mix_fetch (ModUpQtoR b) _ _ (bt0 t) (bt0 u) c0R (ksR1 k) R1 R1' F1 F2 (order_in (btO u) 40 (bt0 u) O') EV) as FF.
  assert (HKK : forall id, In id (parties (bt0 t)) \/ In id (parties (bt1 t)) -> mget seq_dec (ksK k2) id <> None) by (intros id Hid; apply HK; apply in_or_app; exact Hid).
  pose proof (rest1 b WB HD crs (btS t) (btO t) s1 (bt0 t) (bt1 t) c0R out k2 (bt0 t) (bt1 t) O S1 P2 W0 W1 EO HKK FF) as Y.
  unfold t1. rewrite Y. f_equal.
  destruct (lift_total b (Rescale b) (btO t 41%nat (keys (bt1 t))) (bt1 t) (rs_total b WB HD) W1) as (c1R & EV1); [intros x Hx; apply (Permutation_in _ (O 41%nat _)); exact Hx|].
  rewrite EV1. cbn [rbind]. symmetry. assert (MS : mix (bt1 t) (bt1 t) = bt1 t) by (apply mix_self; apply W1). rewrite <- MS at 1. rewrite (pure_mix b crs (btO t) (bt0 t) (bt1 t) (bt0 u) (bt1 t) (ksK k) out c0R c1R W0 W1 W0' W1 EO EV); [|rewrite MS; exact EV1]. reflexivity.
Qed.
Print Assumptions C54_interference.
(** if the other call lifts both operands after this one did, this call multiplies two mixtures *)
Theorem C54_interference_both : forall N b crs (ts : list (bthread N)) ks i j t u k, wfb N b -> (length (bQ b) mod alpha (ppQ b) = 0)%nat -> bready b ts ks -> i <> j ->
  nth_error ts i = Some t -> nth_error ts j = Some u -> btS u = btS t -> nth_error ks (btS t) = Some k ->
  breturned b crs [i; i; j; j; i; i; i] ts ks i = Some (bMulRelinNew b (btO t) crs (mix (bt0 t) (bt0 u)) (mix (bt1 t) (bt1 u)) (ksK k)).
Proof.
  intros N b crs ts ks i j t u k WB HD [RD PO] NE Et Eu ES Ek. pose proof (RD i t k Et Ek) as Rt. pose proof (RD j u k Eu ltac:(rewrite ES; exact Ek)) as Ru. pose proof (PO _ _ Ek) as P0.
  pose proof (ready_btgood b k t Rt) as Gt. pose proof (ready_btgood b k u Ru) as Gu. destruct (ready_P b k t Rt) as [Pt Nt]. destruct (ready_P b k u Ru) as [Pu Nu].
  destruct (step0 b WB HD crs t k Gt P0 Pt) as (s1 & R1 & out & X1 & S1 & PK1 & EO & F1).
  set (k1 := KSet (ksK k) R1 (ksR2 k) (ksH0 k) (ksH1 k)) in *. pose proof (pools_R1 b k R1 P0 PK1) as P1. fold k1 in P1.
  set (t1 := BTh (btS t) (bt0 t) (bt1 t) (btO t) s1 1 out None) in *.
  assert (G1 : btgood b k1 t1) by (pose proof Gt as (O & W0 & W1 & HK & SH); split; [exact O|split; [exact W0|split; [exact W1|split; [exact HK|intros _; exact S1]]]]).
  destruct (step1 b WB HD crs t1 k1 G1 P1 eq_refl eq_refl) as (s1' & R2 & X1' & S1' & PK1' & F1'). cbn [ksK ksR1 ksR2 ksH0 ksH1 k1 btS bt0 bt1 btO btN t1] in X1', PK1', F1'.
  set (k2 := KSet (ksK k) R1 R2 (ksH0 k) (ksH1 k)) in *. pose proof (pools_R2 b k1 R2 P1 PK1') as P2. change (KSet (ksK k1) (ksR1 k1) R2 (ksH0 k1) (ksH1 k1)) with k2 in P2.
  destruct (step0 b WB HD crs u k2 (btgood_K b k k2 u eq_refl Gu) P2 Pu) as (s2 & R1' & out' & X2 & S2 & PK2 & EO' & F2). cbn [ksR1 ksR2 ksK ksH0 ksH1 k2] in X2, F2, PK2.
  set (k3 := KSet (ksK k) R1' R2 (ksH0 k) (ksH1 k)) in *. pose proof (pools_R1 b k2 R1' P2 PK2) as P3. change (KSet (ksK k2) R1' (ksR2 k2) (ksH0 k2) (ksH1 k2)) with k3 in P3.
  set (u1 := BTh (btS u) (bt0 u) (bt1 u) (btO u) s2 1 out' None) in *.
  assert (G3 : btgood b k3 u1) by (pose proof Gu as (O & W0 & W1 & HK & SH); split; [exact O|split; [exact W0|split; [exact W1|split; [exact HK|intros _; exact S2]]]]).
  destruct (step1 b WB HD crs u1 k3 G3 P3 eq_refl eq_refl) as (s2' & R2' & X3 & S3 & PK3 & F3). cbn [ksK ksR1 ksR2 ksH0 ksH1 k3 btS bt0 bt1 btO btN u1] in X3, PK3, F3.
  set (k4 := KSet (ksK k) R1' R2' (ksH0 k) (ksH1 k)) in *. pose proof (pools_R2 b k3 R2' P3 PK3) as P4. change (KSet (ksK k3) (ksR1 k3) R2' (ksH0 k3) (ksH1 k3)) with k4 in P4.
  destruct Gt as (O & W0 & W1 & HK & SH). destruct Gu as (O' & W0' & W1' & HK' & SH').
  set (t2 := BTh (btS t) (bt0 t) (bt1 t) (btO t) s1' 2 out None) in *. set (u2 := BTh (btS u) (bt0 u) (bt1 u) (btO u) s2' 2 out' None) in *.
  assert (ST1 : btS t1 = btS t) by reflexivity. assert (SU1 : btS u1 = btS t) by exact ES.
  unfold breturned. cbn [bschedule]. rewrite Et, Ek, X1. rewrite nth_set, Nat.eqb_refl, Et. rewrite ST1. rewrite nth_set, Nat.eqb_refl, Ek. rewrite X1'.
  rewrite !nth_set. destruct (Nat.eqb_spec i j) as [|_]; [contradiction|]. rewrite Eu. rewrite !nth_set. rewrite ES, !Nat.eqb_refl, Ek. rewrite X2.
  rewrite !nth_set. rewrite !Nat.eqb_refl. destruct (Nat.eqb_spec i j) as [|_]; [contradiction|]. rewrite Eu. rewrite SU1. rewrite !nth_set, !Nat.eqb_refl, Ek. rewrite X3.
  match goal with |- context [set_nth j u2 ?X] => set (ts2 := set_nth j u2 X) end. match goal with |- context [set_nth (btS t) k4 ?X] => set (ks2 := set_nth (btS t) k4 X) end.
  change (match nth_error (fst (bschedule b crs [i; i; i] ts2 ks2)) i with Some t0 => btR t0 | None => None end = Some (bMulRelinNew b (btO t) crs (mix (bt0 t) (bt0 u)) (mix (bt1 t) (bt1 u)) (ksK k))).
  assert (E2 : nth_error ts2 i = Some t2). { unfold ts2. rewrite !nth_set. destruct (Nat.eqb_spec j i); [congruence|]. rewrite !Nat.eqb_refl, Et. reflexivity. }
  assert (K2 : nth_error ks2 (btS t2) = Some k4). { unfold ks2. change (btS t2) with (btS t). rewrite !nth_set, !Nat.eqb_refl, Ek. reflexivity. }
  destruct (bsched_excl b crs [i; i; i] i ts2 ks2 t2 k4 E2 K2) as [X _]. { intros x tx Hx _. left. cbn in Hx. clear - Hx. intuition congruence. }
  rewrite X. replace (count_occ Nat.eq_dec [i; i; i] i) with 3%nat by (cbn [count_occ]; destruct (Nat.eq_dec i i); [reflexivity|congruence]).
  destruct (lift_total b (ModUpQtoR b) (btO t 40%nat (keys (bt0 t))) (mix (bt0 t) (bt0 u)) (up_total b WB HD) (mix_wf _ _ _ _ W0 W0')) as (c0R & EV); [rewrite mix_keys; intros x Hx; apply (Permutation_in _ (O 40%nat _)); exact Hx|].
  destruct (lift_total b (Rescale b) (btO t 41%nat (keys (bt1 t))) (mix (bt1 t) (bt1 u)) (rs_total b WB HD) (mix_wf _ _ _ _ W1 W1')) as (c1R & EV1); [rewrite mix_keys; intros x Hx; apply (Permutation_in _ (O 41%nat _)); exact Hx|].
  pose proof (mix_fetch (ModUpQtoR b) _ _ (bt0 t) (bt0 u) c0R (ksR1 k) R1 R1' F1 F2 (order_in (btO u) 40 (bt0 u) O') EV) as FF.
  pose proof (mix_fetch (Rescale b) _ _ (bt1 t) (bt1 u) c1R (ksR2 k) R2 R2' F1' F3 (order_in (btO u) 41 (bt1 u) O') EV1) as FF1.
  assert (HKK : forall id, In id (parties (bt0 t)) \/ In id (parties (bt1 t)) -> mget seq_dec (ksK k4) id <> None) by (intros id Hid; apply HK; apply in_or_app; exact Hid).
  pose proof (rest2 b WB HD crs (btS t) (btO t) s1' (bt0 t) (bt1 t) c0R c1R out k4 (bt0 t) (bt1 t) O S1' P4 W0 W1 EO HKK FF FF1) as Y.
  unfold t2. rewrite Y. f_equal. symmetry. apply (pure_mix b crs (btO t) (bt0 t) (bt1 t) (bt0 u) (bt1 u) (ksK k) out c0R c1R W0 W1 W0' W1' EO EV EV1).
Qed.
Print Assumptions C54_interference_both.

(** ** a new key set *)
Definition newKeySet {N} (b : bparams) (rs : brlkset N) : bkeyset N := let w := bfv_fresh b rs in KSet rs (bwR1 w) (bwR2 w) (bwH0 w) (bwH1 w).
Lemma newKeySet_ok {N} b (rs : brlkset N) : wfb N b -> (length (bQ b) mod alpha (ppQ b) = 0)%nat -> bpools_ok b (newKeySet b rs).
Proof. intros WB HD. destruct (bfresh_sized b WB HD rs) as (_ & H). exact H. Qed.

(** alice multiplies two ciphertexts of hers, bob two of his, on two Evaluators that share the key set: with the schedule of C54_interference alice's result decrypts to the product of BOB's first message and her second *)
Definition xsh_one : R 8 := ex_poly [1; 0; 0; 0; 0; 0; 0; 0].
Definition xsh_ct (x : string) (m e : R 8) : ctT 8 := exc_ct [x] exc_A (exc_X m e).
Definition xsh_names : list string := ["alice"; "bob"]%string.
Definition xsh_rs : brlkset 8 := map (fun id => (id, exc_rlk id)) xsh_names.
Definition xsh_sks : gomap string (secretKey 8) := map (fun id => (id, exc_sk id)) xsh_names.
Definition xsh_V : Z := qprod exc mod 17 * 8 + 17 * 3.
Lemma xsh_mix x y (m m' e e' : R 8) : x <> id0 -> x <> y -> mix (xsh_ct x m e) (xsh_ct y m' e') = xsh_ct x m' e'.
Proof.
  intros NX NY. unfold xsh_ct, exc_ct, mix. cbn [map fst snd mget]. destruct (seq_dec id0 id0) as [_|C]; [|congruence]. destruct (seq_dec x id0) as [|_]; [contradiction|]. destruct (seq_dec x y) as [|_]; [contradiction|]. reflexivity.
Qed.
Lemma xsh_nd x : In x xsh_names -> NoDup (id0 :: [x]).
Proof. intros H. cbn [In xsh_names] in H. repeat constructor; [|cbn; tauto]. intros [E|[]]. destruct H as [<-|[<-|[]]]; discriminate. Qed.
Lemma xsh_wf x m e : In x xsh_names -> wfct (ppQ exc) (maxLevel (ppQ exc)) false (xsh_ct x m e) /\ parties (xsh_ct x m e) = [x].
Proof. intros H. destruct (exc_ct_ok [x] exc_A (exc_X m e) (xsh_nd x H)) as (A & B & _). split; assumption. Qed.
Lemma xsh_get id : In id xsh_names -> brlk_get xsh_rs id = Ok (exc_rlk id).
Proof. intros H. cbn [In xsh_names] in H. repeat (destruct H as [<-|H]; [reflexivity|]). destruct H. Qed.
Lemma xsh_keys x y (m m' e e' : R 8) : In x xsh_names -> In y xsh_names -> relin_keys exc (fun _ => ex_s) (fun _ => ex_s) exc_crs xsh_rs 3 1 (xsh_ct x m e) (xsh_ct y m' e').
Proof.
  intros HX HY. exists (crs_entry (ppQ exc) (exc_u 0)), (crs_entry (ppQ exc) (exc_u (-3))), (crs_entry (ppQ exc) (exc_u (-1))). split; [reflexivity|]. split; [reflexivity|]. split; [reflexivity|]. split; [apply exc_crs_entry; lia|].
  intros id Hid. rewrite (proj2 (xsh_wf x m e HX)), (proj2 (xsh_wf y m' e' HY)) in Hid. exists (exc_rlk id). split; [apply xsh_get|apply exc_rlk_ok].
  cbn [In] in Hid. destruct Hid as [[<-|[]]|[<-|[]]]; assumption.
Qed.
Lemma xsh_sks_ok : keys_ok (ppQ exc) (fun _ => True) (fun _ => ex_s) xsh_sks.
Proof.
  split; [unfold mwf; change (keys xsh_sks) with xsh_names; repeat constructor; cbn; intuition discriminate|]. intros id k Hk.
  assert (E : k = exc_sk id) by (revert Hk; unfold xsh_sks; generalize xsh_names as l'; induction l' as [|y l' IH]; cbn [map mget]; [discriminate|destruct (seq_dec id y); [subst; congruence|exact IH]]).
  subst k. split; [reflexivity|]. intros _. apply exc_sk_val.
Qed.
(** what a decryption of [out] shows: the message m *)
Definition decrypts_to (o : order) (out : ctT 8) (m : R 8) : Prop := exists p X, bDecrypt (ppQ exc) o out xsh_sks = Ok p /\ residues (Qs (ppQ exc)) (prows p) X /\
  forall i, (i < 8)%nat -> (17 | (2 * (17 * co X i) + qprod exc) / (2 * qprod exc) - co m i).
Lemma xsh_product x y (m m' : R 8) k k' : In x xsh_names -> In y xsh_names -> bnd m 8 -> bnd m' 8 ->
  exists out, bMulRelinNew exc ex_ord exc_crs (xsh_ct x m (ex_e k)) (xsh_ct y m' (ex_e k')) xsh_rs = Ok out /\ decrypts_to ex_ord out (mul m m').
Proof.
  intros HX HY BM BM'. assert (BE : forall k, bnd (ex_e k) 3) by (intros i; apply ex_e_sample).
  destruct (xsh_wf x m (ex_e k) HX) as [W0 P0]. destruct (xsh_wf y m' (ex_e k') HY) as [W1 P1].
  destruct (C40_decrypts 8 exc ex_ord ex_ord exc_crs (xsh_ct x m (ex_e k)) (xsh_ct y m' (ex_e k')) xsh_rs xsh_sks (fun _ => ex_s) (fun _ => ex_s) 3 1 m m' xsh_V xsh_V exc_wf exc_div ex_ord_ok ex_ord_ok W0 W1
    (xsh_keys x y m m' _ _ HX HY) xsh_sks_ok) as (out & p & A & B & (X & C) & D).
  - rewrite P0. intros z [<-|[]]. exact HX.
  - rewrite P1. intros z [<-|[]]. exact HY.
  - apply exc_encodes; [apply xsh_nd; exact HX|exact BM|apply BE].
  - apply exc_encodes; [apply xsh_nd; exact HY|exact BM'|apply BE].
  - rewrite P0, P1. vm_compute. reflexivity.
  - exists out. split; [exact A|]. exists p, X. split; [exact B|]. split; [exact C|]. intros i Hi. apply (D X i C Hi).
Qed.
Lemma interference2 {N} b crs (o : order) (s s' : bst N) (c0 c1 d0 d1 : ctT N) (rs : brlkset N) : wfb N b -> (length (bQ b) mod alpha (ppQ b) = 0)%nat -> bready b [bbegin 0 o s c0 c1; bbegin 0 o s' d0 d1] [newKeySet b rs] ->
  breturned b crs [0; 1; 0; 0; 0; 0]%nat [bbegin 0 o s c0 c1; bbegin 0 o s' d0 d1] [newKeySet b rs] 0 = Some (bMulRelinNew b o crs (mix c0 d0) c1 rs).
Proof. intros WB HD BR. apply (C54_interference N b crs _ _ 0 1 (bbegin 0 o s c0 c1) (bbegin 0 o s' d0 d1) (newKeySet b rs) WB HD BR); [discriminate|reflexivity|reflexivity|reflexivity|reflexivity]. Qed.
Theorem C54_wrong_product : exists (ts : list (bthread 8)) k ta tb outA outB, bready exc ts [k] /\ nth_error ts 0 = Some ta /\ nth_error ts 1 = Some tb /\
  bcall_parties ta = ["alice"; "alice"]%string /\ bcall_parties tb = ["bob"; "bob"]%string /\
  bown exc exc_crs k ta = Ok outA /\ decrypts_to ex_ord outA (mul xsh_one xsh_one) /\
  breturned exc exc_crs [0; 1; 0; 0; 0; 0]%nat ts [k] 0 = Some (Ok outB) /\ decrypts_to ex_ord outB (mul exc_m0 xsh_one) /\ co (mul xsh_one xsh_one) 1 = 0 /\ co (mul exc_m0 xsh_one) 1 = 2.
Proof.
  assert (AL : In "alice"%string xsh_names) by (left; reflexivity). assert (BO : In "bob"%string xsh_names) by (right; left; reflexivity).
  assert (B0 : bnd exc_m0 8) by (apply bnd_poly; [lia|reflexivity]). assert (B1 : bnd xsh_one 8) by (apply bnd_poly; [lia|reflexivity]).
  destruct (xsh_product "alice" "alice" xsh_one xsh_one 0 1 AL AL B1 B1) as (outA & EA & DA). destruct (xsh_product "alice" "alice" exc_m0 xsh_one 2 1 AL AL B0 B1) as (outB & EB & DB).
  set (k := newKeySet exc xsh_rs). set (ta := bbegin 0 ex_ord (newBst exc) (xsh_ct "alice" xsh_one (ex_e 0)) (xsh_ct "alice" xsh_one (ex_e 1))). set (tb := bbegin 0 ex_ord (newBst exc) (xsh_ct "bob" exc_m0 (ex_e 2)) (xsh_ct "bob" xsh_one (ex_e 3))).
  assert (CP : forall x m m' e e', In x xsh_names -> bcall_parties (bbegin 0 ex_ord (newBst exc) (xsh_ct x m e) (xsh_ct x m' e')) = [x; x]) by (intros; unfold bcall_parties, bbegin; cbn [bt0 bt1]; rewrite !(proj2 (xsh_wf _ _ _ H)); reflexivity).
  assert (RD : forall x m m' e e', In x xsh_names -> bcall_ready exc k (bbegin 0 ex_ord (newBst exc) (xsh_ct x m e) (xsh_ct x m' e'))).
  { intros x m m' e e' Hx. exists ex_ord, (newBst exc), (xsh_ct x m e), (xsh_ct x m' e'). split; [reflexivity|]. split; [exact ex_ord_ok|]. split; [apply (newBst_ok exc exc_wf exc_div)|]. split; [apply xsh_wf; exact Hx|]. split; [apply xsh_wf; exact Hx|].
    intros id. rewrite (CP x m m' e e' Hx). intros Hid C. assert (E : id = x) by (cbn [In] in Hid; intuition congruence). subst id. pose proof (xsh_get x Hx) as G. unfold brlk_get in G. change (ksK k) with xsh_rs in C. rewrite C in G. discriminate. }
  assert (BR : bready exc [ta; tb] [k]).
  { split.
    - intros [|[|j]] t k0 Ht Hk; cbn [nth_error] in Ht; [injection Ht as <-|injection Ht as <-|destruct j; discriminate]; cbn [btS ta tb bbegin nth_error] in Hk; injection Hk as <-; apply RD; assumption.
    - intros [|s] k0 Hk; cbn [nth_error] in Hk; [injection Hk as <-; apply newKeySet_ok; [exact exc_wf|exact exc_div]|destruct s; discriminate]. }
  exists [ta; tb], k, ta, tb, outA, outB. split; [exact BR|]. split; [reflexivity|]. split; [reflexivity|]. split; [apply CP; exact AL|]. split; [apply CP; exact BO|]. split; [exact EA|]. split; [exact DA|].
  split; [|split; [exact DB|split; vm_compute; reflexivity]].
  unfold ta, tb, k. rewrite (interference2 exc exc_crs ex_ord (newBst exc) (newBst exc) _ (xsh_ct "alice" xsh_one (ex_e 1)) _ (xsh_ct "bob" xsh_one (ex_e 3)) xsh_rs exc_wf exc_div BR).
  rewrite (xsh_mix "alice" "bob") by discriminate. rewrite EB. reflexivity.
Qed.
Print Assumptions C54_wrong_product.
