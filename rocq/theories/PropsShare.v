(** C32: concurrent MulRelinNew calls on different Evaluators that share one RelinearizationKeySet (ShareModel.v). *)
From Flocq Require Import Core BinarySingleNaN.
From Coq Require Import Znumtheory Setoid Morphisms Reals Lra.
From Verif Require Import Base IdSetModel IdSetSpec IdSetProofs KeySetModel NumTheory Negacyclic Ntt Word FloatModel CkksFloat BasisExt BasisExtProofs DecompProofs Rows RlweModel KeyGenModel SchemeSpec ExtProd ExtProps Galois KeyGenProofs Instance CtModel CtSpec CtProofs EncDecProofs PropsEnc KeySwitchModel Digits KsLoops RotProofs CkksModel CkksProofs PropsKeySwitch PropsCkks PropsCkksEx KsPool KsPoolProofs EvalPool EvalPoolProofs PropsPool ShareModel.
Open Scope Z_scope.

(** ** Specification *)
Section Spec.
  Context {N : nat} (pp : rparams).
  (** the parties of the operands of a call *)
  Definition call_parties (t : thread N) : list string := parties (cv (tc0 t)) ++ parties (cv (tc1 t)).
  (** t is a call MulRelinNew about to start: operands of the scheme's sizes, a KeySwitcher with buffers of the sizes it was created with, a key for every party *)
  Definition call_ready (rs : rlkset N) (t : thread N) : Prop :=
    exists o ks c0 c1 same, begin o ks c0 c1 same = Ok t /\ order_ok o /\ sh pp ks /\ operands_sized pp (EMul c0 c1 same) /\
      forall id, In id (call_parties t) -> mget seq_dec rs id <> None.
  (** what the call returns when nothing else runs and no buffer is reused *)
  Definition own_product (crs : crsT N) (pscale : f64) (rs : rlkset N) (t : thread N) : res (ckct N) := MulRelinNew pp (tord t) crs pscale (tc0 t) (tc1 t) (tsame t) rs.
  (** the buffers of the key set: of the sizes they were created with, one in each pool for every key *)
  Definition pools_ok (rs : rlkset N) (h : heap N) : Prop :=
    hshape pp (fst h) /\ hshape pp (snd h) /\ forall id, mget seq_dec rs id <> None -> mget seq_dec (fst h) id <> None /\ mget seq_dec (snd h) id <> None.
End Spec.

Section Share.
  Context {N : nat} (pp : rparams) (WF : wfp N pp) (crs : crsT N) (pscale : f64) (rs : rlkset N).
  Notation kst := (kst N).
  Notation exec := (exec pp crs pscale rs).
  Definition ids_in (S : list string) (p : list instr) : Prop := forall b id, In (IHoist b id) p \/ In (IRead b id) p -> In id S.
  Definition agree (S : list string) (h h' : heap N) : Prop := forall id, In id S -> forall b, mget seq_dec (hsel b h) id = mget seq_dec (hsel b h') id.
  Lemma hsel_hupd b b' (h : heap N) x : hsel b (hupd b' h x) = if Bool.eqb b b' then x else hsel b h.
  Proof. destruct b, b'; reflexivity. Qed.
  Lemma exec_local S (t : thread N) h h' : ids_in S (tprog t) -> agree S h h' ->
    fst (exec t h) = fst (exec t h') /\ agree S (snd (exec t h)) (snd (exec t h')) /\ ids_in S (tprog (fst (exec t h))).
  Proof.
    intros HS AG. unfold ShareModel.exec. destruct (tprog t) as [|[b id|b id|] rest] eqn:EP.
    - cbn [fst snd]. rewrite EP. auto.
    - assert (HI : In id S) by (apply (HS b); left; left; reflexivity).
      assert (HR : ids_in S rest) by (intros b' x Hx; apply (HS b'); cbn; tauto).
      destruct (ctLevel _) as [level|]; cbn [rbind]; [|cbn; split; [reflexivity|split; [exact AG|intros b' x [[]|[]]]]].
      destruct (cgetL _ _ _) as [p|]; cbn [rbind]; [|cbn; split; [reflexivity|split; [exact AG|intros b' x [[]|[]]]]].
      unfold hget. rewrite <- (AG id HI b). destruct (mget seq_dec (hsel b h) id) as [buf|]; cbn [rbind]; [|cbn; split; [reflexivity|split; [exact AG|intros b' x [[]|[]]]]].
      destruct (DecSt _ _ _ _ _) as [[ks d]|]; [|cbn; split; [reflexivity|split; [exact AG|intros b' x [[]|[]]]]].
      cbn [fst snd]. split; [reflexivity|]. split; [|exact HR]. intros x Hx b'. rewrite !hsel_hupd. destruct (Bool.eqb b' b) eqn:E; [|apply AG; exact Hx].
      rewrite !mget_mset. destruct (seq_dec x id); [reflexivity|apply AG; exact Hx].
    - assert (HI : In id S) by (apply (HS b); right; left; reflexivity).
      assert (HR : ids_in S rest) by (intros b' x Hx; apply (HS b'); cbn; tauto).
      unfold hget. rewrite <- (AG id HI b). destruct (mget seq_dec (hsel b h) id) as [d|]; [|cbn; split; [reflexivity|split; [exact AG|intros b' x [[]|[]]]]].
      cbn [fst snd]. split; [reflexivity|]. split; [exact AG|]. destruct b; exact HR.
    - destruct (MulRelinHoistedNewSt _ _ _ _ _ _ _ _ _ _) as [[ks c]|]; cbn [fst snd]; (split; [reflexivity|split; [exact AG|intros b' x [[]|[]]]]).
  Qed.
  Lemma exec_frame S (t : thread N) h id b : ids_in S (tprog t) -> ~ In id S -> mget seq_dec (hsel b (snd (exec t h))) id = mget seq_dec (hsel b h) id.
  Proof.
    intros HS NI. unfold ShareModel.exec. destruct (tprog t) as [|[b' x|b' x|] rest] eqn:EP; [reflexivity| | |].
    - assert (HI : In x S) by (apply (HS b'); left; left; reflexivity).
      destruct (level <- _ ;; _) as [[ks d]|]; [|reflexivity]. cbn [snd]. rewrite hsel_hupd. destruct (Bool.eqb b b') eqn:E; [|reflexivity]. apply eqb_prop in E. subst b'.
      rewrite mget_mset. destruct (seq_dec id x); [congruence|reflexivity].
    - destruct (hget _ _); reflexivity.
    - destruct (MulRelinHoistedNewSt _ _ _ _ _ _ _ _ _ _) as [[ks c]|]; reflexivity.
  Qed.
  (** the operands stay *)
  Lemma exec_call (t : thread N) h : let t' := fst (exec t h) in tc0 t' = tc0 t /\ tc1 t' = tc1 t /\ tsame t' = tsame t /\ tord t' = tord t.
  Proof.
    cbv zeta. unfold ShareModel.exec. destruct (tprog t) as [|[b x|b x|] rest]; [cbn; tauto| | |].
    - destruct (level <- _ ;; _) as [[ks d]|]; cbn; tauto.
    - destruct (hget _ _); [destruct b|]; cbn; tauto.
    - destruct (MulRelinHoistedNewSt _ _ _ _ _ _ _ _ _ _) as [[ks c]|]; cbn; tauto.
  Qed.
  (** one call alone, n steps *)
  Fixpoint solo (n : nat) (th : thread N * heap N) : thread N * heap N := match n with O => th | S n => solo n (exec (fst th) (snd th)) end.
  Lemma solo_add n m th : solo (n + m) th = solo m (solo n th).
  Proof. revert th. induction n as [|n IH]; intros th; cbn; [reflexivity|apply IH]. Qed.
  Lemma solo_S n th : solo (S n) th = exec (fst (solo n th)) (snd (solo n th)).
  Proof. replace (S n) with (n + 1)%nat by lia. rewrite solo_add. reflexivity. Qed.
  Lemma solo_ids S n t h : ids_in S (tprog t) -> ids_in S (tprog (fst (solo n (t, h)))).
  Proof.
    intros H. induction n as [|n IH]; [exact H|]. rewrite solo_S. apply (exec_local S _ _ (snd (solo n (t, h)))); [exact IH|intros id _ b; reflexivity].
  Qed.
  Lemma solo_call n t h : let t' := fst (solo n (t, h)) in tc0 t' = tc0 t /\ tc1 t' = tc1 t /\ tsame t' = tsame t /\ tord t' = tord t.
  Proof.
    cbv zeta. induction n as [|n (A & B & C & D)]; [cbn; tauto|]. rewrite solo_S. destruct (exec_call (fst (solo n (t, h))) (snd (solo n (t, h)))) as (A' & B' & C' & D'). rewrite A', B', C', D'. tauto.
  Qed.
  (** ended calls stay as they are; the outcome appears with the end *)
  Lemma exec_end (t : thread N) h : (tout t <> None -> tprog t = nil) -> (tout (fst (exec t h)) <> None -> tprog (fst (exec t h)) = nil).
  Proof.
    intros H. unfold ShareModel.exec. destruct (tprog t) as [|[b x|b x|] rest] eqn:EP; [cbn [fst]; intros _; exact EP| | |].
    - destruct (level <- _ ;; _) as [[ks d]|]; cbn; [|reflexivity]. intros X. specialize (H X). discriminate.
    - destruct (hget _ _); [destruct b|]; cbn; try reflexivity; intros X; specialize (H X); discriminate.
    - destruct (MulRelinHoistedNewSt _ _ _ _ _ _ _ _ _ _) as [[ks c]|]; reflexivity.
  Qed.
  Lemma solo_end n t h : tout t = None -> tout (fst (solo n (t, h))) <> None -> tprog (fst (solo n (t, h))) = nil.
  Proof. intros H. induction n as [|n IH]; [cbn; congruence|]. rewrite solo_S. apply exec_end. exact IH. Qed.
  Lemma solo_stays m th : tprog (fst th) = nil -> solo m th = th.
  Proof. intros H. induction m as [|m IH]; [reflexivity|]. cbn. unfold ShareModel.exec. rewrite H. destruct th; exact IH. Qed.
  Lemma solo_same n m t h r : tout t = None -> tout (fst (solo n (t, h))) = Some r -> tout (fst (solo (n + m) (t, h))) = Some r.
  Proof. intros H0 H. rewrite solo_add. rewrite solo_stays; [exact H|]. apply solo_end; [exact H0|congruence]. Qed.

  (** *** a call alone returns its product *)
  Lemma solo_hoists b l : forall (t : thread N) h rest level, tprog t = map (IHoist b) l ++ rest -> tout t = None -> ctLevel (cv (if b then tc1 t else tc0 t)) = Ok level ->
    match rfold (fun '(st, hp) id => p <- cgetL (cv (if b then tc1 t else tc0 t)) id level ;; buf <- hget hp id ;; '(st, d) <- DecSt pp level st p buf ;; Ok (st, mset seq_dec hp id d)) l (tks t, hsel b h) with
    | Ok (ks, hp) => exists h', solo (length l) (t, h) = (setks (setprog t rest) ks, h') /\ hsel b h' = hp /\ hsel (negb b) h' = hsel (negb b) h
    | Panic => exists n, tout (fst (solo n (t, h))) = Some Panic
    end.
  Proof.
    induction l as [|x l IH]; intros t h rest level EP EO EL; cbn [rfold length].
    - exists h. split; [|split; reflexivity]. cbn. destruct t. cbn in EP |- *. subst. reflexivity.
    - cbn [map app] in EP.
      assert (E1 : exec t h = match (p <- cgetL (cv (if b then tc1 t else tc0 t)) x level ;; buf <- hget (hsel b h) x ;; DecSt pp level (tks t) p buf) with
        | Ok (ks, d) => (setks (setprog t (map (IHoist b) l ++ rest)) ks, hupd b h (mset seq_dec (hsel b h) x d)) | Panic => (fin t (tks t) Panic, h) end).
      { unfold ShareModel.exec. rewrite EP, EL. reflexivity. }
      destruct (cgetL (cv (if b then tc1 t else tc0 t)) x level) as [p|]; cbn [rbind] in E1 |- *; [|exists 1%nat; cbn [solo fst snd]; rewrite E1; reflexivity].
      destruct (hget (hsel b h) x) as [buf|]; cbn [rbind] in E1 |- *; [|exists 1%nat; cbn [solo fst snd]; rewrite E1; reflexivity].
      destruct (DecSt pp level (tks t) p buf) as [[ks d]|]; cbn [rbind] in E1 |- *; [|exists 1%nat; cbn [solo fst snd]; rewrite E1; reflexivity].
      specialize (IH (setks (setprog t (map (IHoist b) l ++ rest)) ks) (hupd b h (mset seq_dec (hsel b h) x d)) rest level eq_refl EO).
      assert (EL' : ctLevel (cv (if b then tc1 t else tc0 t)) = Ok level) by exact EL. specialize (IH EL'). cbn [tks tc0 tc1 setks setprog] in IH. rewrite hsel_hupd, Bool.eqb_reflx in IH.
      destruct (rfold _ l _) as [[ks' hp']|].
      + destruct IH as (h' & S1 & S2 & S3). exists h'. cbn [solo fst snd]. rewrite E1, S1. split; [reflexivity|]. split; [exact S2|]. rewrite S3. rewrite hsel_hupd. destruct b; reflexivity.
      + destruct IH as (n & En). exists (S n). cbn [solo fst snd]. rewrite E1. exact En.
  Qed.
  Lemma solo_reads b l : forall (t : thread N) h rest, tprog t = map (IRead b) l ++ rest -> (forall id, In id l -> mget seq_dec (hsel b h) id <> None) ->
    exists L, solo (length l) (t, h) = (setl b (setprog t rest) L, h) /\ (forall id, In id l -> mget seq_dec L id = mget seq_dec (hsel b h) id) /\
      (forall id, ~ In id l -> mget seq_dec L id = mget seq_dec (if b then tl1 t else tl0 t) id).
  Proof.
    induction l as [|x l IH]; intros t h rest EP HC; cbn [length solo fst snd].
    - exists (if b then tl1 t else tl0 t). split; [|split; [intros id []|reflexivity]]. destruct b, t; cbn in EP |- *; subst; reflexivity.
    - cbn [map app] in EP. unfold ShareModel.exec. rewrite EP. unfold hget. destruct (mget seq_dec (hsel b h) x) as [d|] eqn:EX; [|destruct (HC x (or_introl eq_refl) EX)].
      set (L0 := mset seq_dec (if b then tl1 t else tl0 t) x d).
      destruct (IH (setl b (setprog t (map (IRead b) l ++ rest)) L0) h rest) as (L & E & A & B); [destruct b; reflexivity|intros id Hid; apply HC; right; exact Hid|].
      exists L. split; [|split].
      + rewrite E. f_equal. destruct b, t; reflexivity.
      + intros id [<-|Hid]; [|apply A; exact Hid]. destruct (in_dec seq_dec x l) as [I|NI]; [apply A; exact I|]. rewrite (B x NI), EX. unfold L0. destruct b; cbn; rewrite mget_mset; (destruct (seq_dec x x); [reflexivity|congruence]).
      + intros id NI. cbn in NI. rewrite B by tauto. destruct b; cbn; unfold L0; rewrite mget_mset; (destruct (seq_dec id x); [subst; tauto|reflexivity]).
  Qed.
  Lemma hrel_loaded l ks (h hp L : hoisted N) : hrel pp l ks (Some h) (Some hp) -> (forall id, In id ks -> mget seq_dec L id = mget seq_dec hp id) -> hrel pp l ks (Some h) (Some L).
  Proof. intros H E id Hid. unfold hget at 2. rewrite (E id Hid). apply H. exact Hid. Qed.
  Lemma solo_ok (t : thread N) h : call_ready pp rs t -> pools_ok pp rs h -> exists n, tout (fst (solo n (t, h))) = Some (own_product pp crs pscale rs t).
  Proof.
    intros (o & ks & c0 & c1 & same & BG & O & SH & (G0 & G1 & SM) & HK) (HS0 & HS1 & HP). unfold begin, mulProg in BG.
    destruct (IDSetOf (o 60%nat) (cv c0)) as [ids0|] eqn:E0; cbn [rbind] in BG; [|discriminate]. pose proof (EvalPoolProofs.ids_of_parties o _ _ _ O E0) as P0.
    pose proof G0 as (l0 & H0 & S0). pose proof G1 as (l1 & H1 & S1). pose proof (shape_level _ _ S0) as L0. pose proof (shape_level _ _ S1) as L1.
    assert (PK : forall k (st : kst) (hp : heap N), hsel k hp = hsel k hp) by reflexivity. clear PK.
    destruct same.
    - injection BG as <-. specialize (SM eq_refl). subst c1. unfold own_product. cbn [tord tc0 tc1 tsame]. unfold MulRelinNew. rewrite E0. cbn [rbind].
      assert (HIN : forall id, In id (o 61%nat (keys ids0)) <-> In id (parties (cv c0))).
      { intros id. rewrite <- P0. split; intros Hid; [apply (Permutation_in _ (O 61%nat _)); exact Hid|apply (Permutation_in _ (Permutation_sym (O 61%nat _))); exact Hid]. }
      assert (HKK : forall id, In id (keys ids0) -> mget seq_dec rs id <> None /\ mget seq_dec (fst h) id <> None).
      { intros id Hid. apply P0 in Hid. assert (A : mget seq_dec rs id <> None) by (apply HK; unfold call_parties; cbn [tc0 tc1]; apply in_or_app; tauto). split; [exact A|apply HP; exact A]. }
      pose proof (hoistIntoSt_sim pp WF (o 61%nat) rs ks (fst h) c0 ids0 SH (good_fits pp _ G0) HS0 (fun l => O 61%nat l) HKK) as D.
      unfold hoistIntoSt in D. rewrite L0 in D. cbn [rbind] in D.
      set (t := Th _ _ _ _ _ _ _ _ _).
      pose proof (solo_hoists false (o 61%nat (keys ids0)) t h (map (IRead false) (o 61%nat (keys ids0)) ++ [IMul]) l0 eq_refl eq_refl L0) as X. cbn [t tks tc0 hsel fst] in X.
      destruct (rfold _ (o 61%nat (keys ids0)) _) as [[ks' hp']|]; destruct (hoistInto pp (o 61%nat) rs c0 ids0) as [hh|]; cbn [rsim] in D; try contradiction; cbn [rbind].
      + destruct D as (Ss & (KK1 & KK2) & IV & CV). rewrite <- L0 in IV. destruct X as (h' & X1 & X2 & X3).
        assert (CV' : covers hh (parties (cv c0))) by (intros id Hid; apply CV; apply P0; exact Hid).
        destruct (solo_reads false (o 61%nat (keys ids0)) (setks (setprog t (map (IRead false) (o 61%nat (keys ids0)) ++ [IMul])) ks') h' [IMul] eq_refl) as (L & Y1 & Y2 & _).
        { intros id Hid. cbn [hsel]. rewrite X2. apply KK2. apply HKK. apply P0. apply HIN. exact Hid. }
        exists (length (o 61%nat (keys ids0)) + (length (o 61%nat (keys ids0)) + 1))%nat. rewrite solo_add. fold t in X1. rewrite X1. rewrite solo_add, Y1. cbn [solo fst snd]. unfold ShareModel.exec. cbn [setl setks setprog tprog tord tks tc0 tc1 tl0 tl1 tsame t].
        assert (HR : forall l, (forall l0', ctLevel (cv c0) = Ok l0' -> (l <= l0')%nat) -> hrel pp l (parties (cv c0)) (Some hh) (Some L)).
        { intros l Hl. apply (hrel_loaded l _ hh hp'); [apply (hrel_of pp WF c0 hh hp' G0 IV CV' l Hl)|]. intros id Hid. rewrite <- X2. cbn [hsel] in Y2. apply Y2. apply HIN. exact Hid. }
        pose proof (MulRelinHoistedNewSt_sim pp WF o crs pscale ks' c0 c0 (Some hh) (Some L) (Some hh) (Some L) rs O Ss G0 G0 HR HR) as Z. unfold rsim, ksame in Z.
        destruct (MulRelinHoistedNew _ _ _ _ _ _ _ _ _) as [c|], (MulRelinHoistedNewSt _ _ _ _ _ _ _ _ _ _) as [[k c']|]; try contradiction; cbn; [|reflexivity]. destruct Z as [-> _]. reflexivity.
      + exact X.
    - destruct (IDSetOf (o 62%nat) (cv c1)) as [ids1|] eqn:E1; cbn [rbind] in BG; [|discriminate]. pose proof (EvalPoolProofs.ids_of_parties o _ _ _ O E1) as P1.
      injection BG as <-. unfold own_product. cbn [tord tc0 tc1 tsame]. unfold MulRelinNew. rewrite E0, E1. cbn [rbind].
      assert (HIN : forall id, In id (o 61%nat (keys ids0)) <-> In id (parties (cv c0))).
      { intros id. rewrite <- P0. split; intros Hid; [apply (Permutation_in _ (O 61%nat _)); exact Hid|apply (Permutation_in _ (Permutation_sym (O 61%nat _))); exact Hid]. }
      assert (HIN1 : forall id, In id (o 63%nat (keys ids1)) <-> In id (parties (cv c1))).
      { intros id. rewrite <- P1. split; intros Hid; [apply (Permutation_in _ (O 63%nat _)); exact Hid|apply (Permutation_in _ (Permutation_sym (O 63%nat _))); exact Hid]. }
      assert (HKK : forall id, In id (keys ids0) -> mget seq_dec rs id <> None /\ mget seq_dec (fst h) id <> None).
      { intros id Hid. apply P0 in Hid. assert (A : mget seq_dec rs id <> None) by (apply HK; unfold call_parties; cbn [tc0 tc1]; apply in_or_app; tauto). split; [exact A|apply HP; exact A]. }
      assert (HKK1 : forall id, In id (keys ids1) -> mget seq_dec rs id <> None /\ mget seq_dec (snd h) id <> None).
      { intros id Hid. apply P1 in Hid. assert (A : mget seq_dec rs id <> None) by (apply HK; unfold call_parties; cbn [tc0 tc1]; apply in_or_app; tauto). split; [exact A|apply HP; exact A]. }
      pose proof (hoistIntoSt_sim pp WF (o 61%nat) rs ks (fst h) c0 ids0 SH (good_fits pp _ G0) HS0 (fun l => O 61%nat l) HKK) as D.
      unfold hoistIntoSt in D. rewrite L0 in D. cbn [rbind] in D.
      set (A0 := o 61%nat (keys ids0)) in *. set (A1 := o 63%nat (keys ids1)) in *. set (t := Th _ _ _ _ _ _ _ _ _).
      pose proof (solo_hoists false A0 t h (map (IHoist true) A1 ++ map (IRead false) A0 ++ map (IRead true) A1 ++ [IMul]) l0 eq_refl eq_refl L0) as X. cbn [t tks tc0 hsel fst] in X.
      destruct (rfold _ A0 _) as [[ks' hp']|]; destruct (hoistInto pp (o 61%nat) rs c0 ids0) as [hh|]; cbn [rsim] in D; try contradiction; cbn [rbind]; [|exact X].
      destruct D as (Ss & (KK1 & KK2) & IV & CV). rewrite <- L0 in IV. destruct X as (h' & X1 & X2 & X3). fold t in X1. cbn [hsel negb] in X2, X3.
      pose proof (hoistIntoSt_sim pp WF (o 63%nat) rs ks' (snd h) c1 ids1 Ss (good_fits pp _ G1) HS1 (fun l => O 63%nat l) HKK1) as D.
      unfold hoistIntoSt in D. rewrite L1 in D. cbn [rbind] in D. fold A1 in D.
      match type of X1 with _ = (?T, _) => set (t1 := T) in * end.
      pose proof (solo_hoists true A1 t1 h' (map (IRead false) A0 ++ map (IRead true) A1 ++ [IMul]) l1 eq_refl eq_refl L1) as X.
      change (tks t1) with ks' in X. change (tc1 t1) with c1 in X. cbn [hsel negb] in X. rewrite X3 in X.
      destruct (rfold _ A1 _) as [[ks1 hp1]|]; destruct (hoistInto pp (o 63%nat) rs c1 ids1) as [hh1|]; cbn [rsim] in D; try contradiction; cbn [rbind].
      2: { destruct X as (n & En). exists (length A0 + n)%nat. rewrite solo_add, X1. exact En. }
      destruct D as (Ss1 & (KQ1 & KQ2) & IV1 & CV1). rewrite <- L1 in IV1. destruct X as (h2 & Z1 & Z2 & Z3).
      assert (CV' : covers hh (parties (cv c0))) by (intros id Hid; apply CV; apply P0; exact Hid).
      assert (CV1' : covers hh1 (parties (cv c1))) by (intros id Hid; apply CV1; apply P1; exact Hid).
      match type of Z1 with _ = (?T, _) => set (t2 := T) in * end.
      destruct (solo_reads false A0 t2 h2 (map (IRead true) A1 ++ [IMul]) eq_refl) as (L & Y1 & Y2 & _).
      { intros id Hid. cbn [hsel]. rewrite Z3, X2. apply KK2. apply HKK. apply P0. apply HIN. exact Hid. }
      match type of Y1 with _ = (?T, _) => set (t3 := T) in * end.
      destruct (solo_reads true A1 t3 h2 [IMul] eq_refl) as (L' & U1 & U2 & _).
      { intros id Hid. cbn [hsel]. rewrite Z2. apply KQ2. apply HKK1. apply P1. apply HIN1. exact Hid. }
      exists (length A0 + (length A1 + (length A0 + (length A1 + 1))))%nat. rewrite solo_add, X1, solo_add, Z1, solo_add, Y1, solo_add, U1. cbn [solo fst snd]. unfold ShareModel.exec, t3, t2, t1. cbn [setl setks setprog tprog tord tks tc0 tc1 tl0 tl1 tsame t].
      assert (HR : forall l, (forall l0', ctLevel (cv c0) = Ok l0' -> (l <= l0')%nat) -> hrel pp l (parties (cv c0)) (Some hh) (Some L)).
      { intros l Hl. apply (hrel_loaded l _ hh hp'); [apply (hrel_of pp WF c0 hh hp' G0 IV CV' l Hl)|]. intros id Hid. rewrite <- X2, <- Z3. apply Y2. apply HIN. exact Hid. }
      assert (HR1 : forall l, (forall l0', ctLevel (cv c1) = Ok l0' -> (l <= l0')%nat) -> hrel pp l (parties (cv c1)) (Some hh1) (Some L')).
      { intros l Hl. apply (hrel_loaded l _ hh1 hp1); [apply (hrel_of pp WF c1 hh1 hp1 G1 IV1 CV1' l Hl)|]. intros id Hid. rewrite <- Z2. apply U2. apply HIN1. exact Hid. }
      pose proof (MulRelinHoistedNewSt_sim pp WF o crs pscale ks1 c0 c1 (Some hh) (Some L) (Some hh1) (Some L') rs O Ss1 G0 G1 HR HR1) as Z. unfold rsim, ksame in Z.
      destruct (MulRelinHoistedNew _ _ _ _ _ _ _ _ _) as [c|], (MulRelinHoistedNewSt _ _ _ _ _ _ _ _ _ _) as [[k c']|]; try contradiction; cbn; [|reflexivity]. destruct Z as [-> _]. reflexivity.
  Qed.
End Share.

Lemma nth_set {A} i (x : A) l j : nth_error (set_nth i x l) j = if (i =? j)%nat then match nth_error l i with Some _ => Some x | None => None end else nth_error l j.
Proof.
  revert i j. induction l as [|y l IH]; intros i j; cbn.
  - destruct i, j; cbn; try reflexivity. destruct (i =? j)%nat; reflexivity.
  - destruct i as [|i], j as [|j]; cbn; try reflexivity. apply IH.
Qed.
Section Sched.
  Context {N : nat} (pp : rparams) (WF : wfp N pp) (crs : crsT N) (pscale : f64) (rs : rlkset N).
  Notation exec := (exec pp crs pscale rs).
  Notation schedule := (schedule pp crs pscale rs).
  Notation solo := (solo pp crs pscale rs).
  Lemma ready_prog (t : thread N) : call_ready pp rs t -> ids_in (call_parties t) (tprog t) /\ tout t = None.
  Proof.
    intros (o & ks & c0 & c1 & same & BG & O & _). unfold begin, mulProg in BG. destruct (IDSetOf (o 60%nat) (cv c0)) as [ids0|] eqn:E0; cbn [rbind] in BG; [|discriminate]. pose proof (EvalPoolProofs.ids_of_parties o _ _ _ O E0) as P0.
    assert (H0 : forall id, In id (o 61%nat (keys ids0)) -> In id (parties (cv c0))) by (intros id Hid; apply P0; apply (Permutation_in _ (O 61%nat _)); exact Hid).
    destruct same.
    - injection BG as <-. split; [|reflexivity]. unfold call_parties. cbn [tc0 tc1 tprog]. intros b id H. apply in_or_app. left. apply H0.
      rewrite !in_app_iff, !in_map_iff in H. cbn in H. destruct H as [[(x & E & Hx)|[(x & E & Hx)|[E|[]]]]|[(x & E & Hx)|[(x & E & Hx)|[E|[]]]]]; try discriminate; injection E as _ <-; exact Hx.
    - destruct (IDSetOf (o 62%nat) (cv c1)) as [ids1|] eqn:E1; cbn [rbind] in BG; [|discriminate]. pose proof (EvalPoolProofs.ids_of_parties o _ _ _ O E1) as P1.
      assert (H1 : forall id, In id (o 63%nat (keys ids1)) -> In id (parties (cv c1))) by (intros id Hid; apply P1; apply (Permutation_in _ (O 63%nat _)); exact Hid).
      injection BG as <-. split; [|reflexivity]. unfold call_parties. cbn [tc0 tc1 tprog]. intros b id H. apply in_or_app.
      rewrite !in_app_iff, !in_map_iff in H. cbn in H.
      destruct H as [[(x & E & Hx)|[(x & E & Hx)|[(x & E & Hx)|[(x & E & Hx)|[E|[]]]]]]|[(x & E & Hx)|[(x & E & Hx)|[(x & E & Hx)|[(x & E & Hx)|[E|[]]]]]]]; try discriminate; injection E as _ <-; auto.
  Qed.
  Definition disj (ts : list (thread N)) : Prop :=
    forall i j ti tj id, i <> j -> nth_error ts i = Some ti -> nth_error ts j = Some tj -> In id (call_parties ti) -> ~ In id (call_parties tj).
  Definition inv (ts0 : list (thread N)) (h0 : heap N) (k : nat -> nat) (ts : list (thread N)) (h : heap N) : Prop :=
    (forall i, nth_error ts0 i = None -> nth_error ts i = None) /\
    forall i t0, nth_error ts0 i = Some t0 -> nth_error ts i = Some (fst (solo (k i) (t0, h0))) /\ agree (call_parties t0) h (snd (solo (k i) (t0, h0))).
  Lemma sched_inv ts0 h0 : (forall t, In t ts0 -> call_ready pp rs t) -> disj ts0 -> forall sch k ts h, inv ts0 h0 k ts h ->
    inv ts0 h0 (fun i => k i + count_occ Nat.eq_dec sch i)%nat (fst (schedule sch ts h)) (snd (schedule sch ts h)).
  Proof.
    intros RD DJ. induction sch as [|i sch IH]; intros k ts h [IN IV]; cbn [schedule].
    - cbn [fst snd count_occ]. split; [exact IN|]. intros j t0 Hj. rewrite Nat.add_0_r. apply IV. exact Hj.
    - destruct (nth_error ts i) as [t|] eqn:Et.
      + destruct (nth_error ts0 i) as [t0|] eqn:E0; [|rewrite (IN i E0) in Et; discriminate]. destruct (IV i t0 E0) as [Ei AG]. rewrite Et in Ei. injection Ei as ->.
        destruct (exec (fst (solo (k i) (t0, h0))) h) as [t' h'] eqn:EX.
        destruct (ready_prog t0 (RD t0 (nth_error_In _ _ E0))) as [II _]. pose proof (solo_ids pp crs pscale rs (call_parties t0) (k i) t0 h0 II) as IS.
        destruct (exec_local pp crs pscale rs (call_parties t0) (fst (solo (k i) (t0, h0))) h (snd (solo (k i) (t0, h0))) IS AG) as (X1 & X2 & _). rewrite EX in X1, X2. cbn [fst snd] in X1, X2. rewrite <- (solo_S pp crs pscale rs) in X1, X2.
        specialize (IH (fun j => if (i =? j)%nat then S (k j) else k j) (set_nth i t' ts) h').
        match type of IH with ?X -> _ => assert (K : X) end.
        { split.
          - intros j Hj. rewrite nth_set. destruct (Nat.eqb_spec i j) as [->|NE]; [congruence|apply IN; exact Hj].
          - intros j tj Hj. rewrite nth_set. destruct (Nat.eqb_spec i j) as [->|NE].
            + rewrite Et. rewrite E0 in Hj. injection Hj as <-. rewrite X1. split; [reflexivity|exact X2].
            + destruct (IV j tj Hj) as [A B]. split; [exact A|]. intros id Hid b. rewrite <- (B id Hid b).
              pose proof (exec_frame pp crs pscale rs (call_parties t0) (fst (solo (k i) (t0, h0))) h id b IS (DJ j i tj t0 id (not_eq_sym NE) Hj E0 Hid)) as Z. rewrite EX in Z. exact Z. }
        specialize (IH K). destruct IH as [Q1 Q2]. split; [exact Q1|]. intros j tj Hj. specialize (Q2 j tj Hj). cbn [count_occ]. destruct (Nat.eqb_spec i j) as [->|NE].
        * destruct (Nat.eq_dec j j); [|congruence]. rewrite <- plus_n_Sm. exact Q2.
        * destruct (Nat.eq_dec i j); [congruence|]. exact Q2.
      + destruct (nth_error ts0 i) as [t0|] eqn:E0; [destruct (IV i t0 E0) as [A _]; congruence|].
        destruct (IH k ts h (conj IN IV)) as [Q1 Q2]. split; [exact Q1|]. intros j tj Hj. specialize (Q2 j tj Hj). cbn [count_occ]. destruct (Nat.eq_dec i j) as [->|NE]; [congruence|exact Q2].
  Qed.
  Lemma inv0 ts h : inv ts h (fun _ => O) ts h.
  Proof. split; [auto|]. intros i t0 E. split; [exact E|]. intros id _ b. reflexivity. Qed.
  Lemma schedule_app s1 s2 ts h : schedule (s1 ++ s2) ts h = schedule s2 (fst (schedule s1 ts h)) (snd (schedule s1 ts h)).
  Proof. revert ts h. induction s1 as [|i s1 IH]; intros ts h; cbn; [reflexivity|]. destruct (nth_error ts i) as [t|]; [destruct (exec t h)|]; apply IH. Qed.
  (** calls leave the buffers of the key set of their sizes *)
  Definition tgood (t : thread N) : Prop := (tprog t <> nil -> sh pp (tks t)) /\ good pp (tc0 t) /\ good pp (tc1 t).
  Lemma exec_sized (t : thread N) h : tgood t -> pools_ok pp rs h -> tgood (fst (exec t h)) /\ pools_ok pp rs (snd (exec t h)).
  Proof.
    intros (SH & G0 & G1) PO. unfold ShareModel.exec. destruct (tprog t) as [|[b id|b id|] rest] eqn:EP.
    - cbn [fst snd]. split; [|exact PO]. split; [rewrite EP; exact SH|]. split; assumption.
    - assert (S' : sh pp (tks t)) by (apply SH; discriminate). assert (G : good pp (if b then tc1 t else tc0 t)) by (destruct b; assumption).
      assert (F : tgood (fin t (tks t) Panic)) by (split; [cbn; congruence|split; assumption]).
      destruct (ctLevel _) as [level|] eqn:EL; cbn [rbind]; [|split; assumption]. destruct (good_level pp _ _ G EL) as [HL _].
      destruct (cgetL _ _ _) as [p|]; cbn [rbind]; [|split; assumption]. unfold hget. destruct (mget seq_dec (hsel b h) id) as [buf|] eqn:EB; cbn [rbind]; [|split; assumption].
      destruct PO as (P1 & P2 & P3). assert (SB : shS pp buf) by (destruct b; [apply (P2 id)|apply (P1 id)]; exact EB).
      pose proof (DecSt_sim pp WF level (tks t) p p buf HL S' SB (prel_refl _ _)) as D. destruct (Decompose pp level p), (DecSt pp level (tks t) p buf) as [[ks d]|]; cbn [rsim] in D; try contradiction.
      + destruct D as ((r & Lr & ->) & _ & SD & _). cbn [fst snd]. split; [split; [intros _; apply setE_sh; assumption|split; assumption]|].
        assert (X : forall hp : hoisted N, hshape pp hp -> hshape pp (mset seq_dec hp id d)) by (intros hp Hp x y; rewrite mget_mset; destruct (seq_dec x id); [intros E; injection E as <-; exact SD|apply Hp]).
        assert (Y : forall (hp : hoisted N) x, mget seq_dec hp x <> None -> mget seq_dec (mset seq_dec hp id d) x <> None) by (intros hp x Hx; rewrite mget_mset; destruct (seq_dec x id); [discriminate|exact Hx]).
        unfold pools_ok. destruct b; cbn [hupd hsel fst snd]; (split; [auto|split; [auto|]]); intros x Hx; destruct (P3 x Hx); auto.
      + cbn [fst snd]. split; [exact F|]. split; [exact P1|]. split; assumption.
    - assert (S' : sh pp (tks t)) by (apply SH; discriminate). destruct (hget _ _) as [d|]; cbn [fst snd].
      + split; [|exact PO]. destruct b; (split; [intros _; exact S'|split; assumption]).
      + split; [|exact PO]. split; [cbn; congruence|split; assumption].
    - destruct (MulRelinHoistedNewSt _ _ _ _ _ _ _ _ _ _) as [[ks c]|]; cbn [fst snd]; (split; [|exact PO]); (split; [cbn; congruence|split; assumption]).
  Qed.
  Lemma sched_sized sch : forall ts h, (forall t, In t ts -> tgood t) -> pools_ok pp rs h -> pools_ok pp rs (snd (schedule sch ts h)).
  Proof.
    induction sch as [|i sch IH]; intros ts h G PO; cbn [schedule]; [exact PO|]. destruct (nth_error ts i) as [t|] eqn:E; [|apply IH; assumption].
    destruct (exec_sized t h (G t (nth_error_In _ _ E)) PO) as [A B]. destruct (exec t h) as [t' h']. cbn [fst snd] in A, B. apply IH; [|exact B].
    intros x Hx. apply In_nth_error in Hx. destruct Hx as (j & Hj). rewrite nth_set in Hj. destruct (i =? j)%nat; [rewrite E in Hj; injection Hj as <-; exact A|apply G; apply (nth_error_In _ _ Hj)].
  Qed.
  Lemma sched_other sch i : ~ In i sch -> forall ts h, nth_error (fst (schedule sch ts h)) i = nth_error ts i.
  Proof.
    induction sch as [|j sch IH]; intros NI ts h; cbn [schedule]; [reflexivity|]. cbn in NI. destruct (nth_error ts j) as [t|]; [|apply IH; tauto].
    destruct (exec t h) as [t' h']. rewrite IH by tauto. rewrite nth_set. destruct (Nat.eqb_spec j i); [tauto|reflexivity].
  Qed.
  Lemma sched_alone i n : forall ts h t, nth_error ts i = Some t -> nth_error (fst (schedule (repeat i n) ts h)) i = Some (fst (solo n (t, h))).
  Proof.
    induction n as [|n IH]; intros ts h t E; cbn [repeat schedule]; [exact E|]. rewrite E. destruct (exec t h) as [t' h'] eqn:EX.
    rewrite (IH (set_nth i t' ts) h' t'); [|rewrite nth_set, Nat.eqb_refl, E; reflexivity]. cbn [PropsShare.solo fst snd]. rewrite EX. reflexivity.
  Qed.
  Lemma ready_good t : call_ready pp rs t -> tgood t.
  Proof.
    intros (o & ks & c0 & c1 & same & BG & O & SH & (G0 & G1 & _) & _). unfold begin in BG. destruct (mulProg o c0 c1 same); cbn [rbind] in BG; [|discriminate]. injection BG as <-. split; [intros _; exact SH|]. split; assumption.
  Qed.
End Sched.

(** ** C32 *)
Section Statements.
  Context {N : nat}.
  (** no party takes part in two of the calls *)
  Definition disjoint_calls (ts : list (thread N)) : Prop :=
    forall i j ti tj id, i <> j -> nth_error ts i = Some ti -> nth_error ts j = Some tj -> In id (call_parties ti) -> ~ In id (call_parties tj).
  (** what call number i has returned after a schedule (None: it still runs) *)
  Definition returned pp crs pscale rs (sch : list nat) (ts : list (thread N)) (h : heap N) (i : nat) : option (res (ckct N)) :=
    match nth_error (fst (schedule pp crs pscale rs sch ts h)) i with Some t => tout t | None => None end.
End Statements.
(** any number of calls whose party sets are pairwise disjoint, any interleaving: a call that has ended returned its own product, and every call that gets enough steps ends *)
Theorem C32_disjoint_parties : forall N pp crs pscale rs (ts : list (thread N)) h i t, wfp N pp -> (forall t, In t ts -> call_ready pp rs t) -> pools_ok pp rs h -> disjoint_calls ts ->
  nth_error ts i = Some t ->
  (forall sch r, returned pp crs pscale rs sch ts h i = Some r -> r = own_product pp crs pscale rs t) /\
  exists n, forall sch, (n <= count_occ Nat.eq_dec sch i)%nat -> returned pp crs pscale rs sch ts h i = Some (own_product pp crs pscale rs t).
Proof.
  intros N pp crs pscale rs ts h i t WF RD PO DJ Ei. pose proof (RD t (nth_error_In _ _ Ei)) as Rt. destruct (solo_ok pp WF crs pscale rs t h Rt PO) as (n & En). destruct (ready_prog pp rs t Rt) as [_ T0].
  assert (X : forall sch, returned pp crs pscale rs sch ts h i = tout (fst (solo pp crs pscale rs (count_occ Nat.eq_dec sch i) (t, h)))).
  { intros sch. unfold returned. destruct (sched_inv pp crs pscale rs ts h RD DJ sch _ ts h (inv0 pp crs pscale rs ts h)) as [_ IV]. destruct (IV i t Ei) as [-> _]. reflexivity. }
  split.
  - intros sch r H. rewrite X in H. apply (solo_same pp crs pscale rs _ n t h r T0) in H. rewrite Nat.add_comm in H. rewrite (solo_same pp crs pscale rs _ _ t h _ T0 En) in H. congruence.
  - exists n. intros sch Hn. rewrite X. replace (count_occ Nat.eq_dec sch i) with (n + (count_occ Nat.eq_dec sch i - n))%nat by lia. apply (solo_same pp crs pscale rs _ _ t h _ T0 En).
Qed.
Print Assumptions C32_disjoint_parties.
(** with disjoint party sets no other call ever changes a buffer of the parties of a call: however often it reads them it reads what it wrote *)
Theorem C32_buffers_stable : forall N pp crs pscale rs (ts : list (thread N)) h i t sch1 sch2 id b, (forall t, In t ts -> call_ready pp rs t) -> disjoint_calls ts ->
  nth_error ts i = Some t -> In id (call_parties t) -> ~ In i sch2 ->
  mget seq_dec (hsel b (snd (schedule pp crs pscale rs (sch1 ++ sch2) ts h))) id = mget seq_dec (hsel b (snd (schedule pp crs pscale rs sch1 ts h))) id.
Proof.
  intros N pp crs pscale rs ts h i t sch1 sch2 id b RD DJ Ei Hid NI.
  destruct (sched_inv pp crs pscale rs ts h RD DJ (sch1 ++ sch2) _ ts h (inv0 pp crs pscale rs ts h)) as [_ I1]. destruct (sched_inv pp crs pscale rs ts h RD DJ sch1 _ ts h (inv0 pp crs pscale rs ts h)) as [_ I2].
  destruct (I1 i t Ei) as [_ A1], (I2 i t Ei) as [_ A2]. rewrite (A1 id Hid b), (A2 id Hid b). rewrite count_occ_app. rewrite (proj1 (count_occ_not_In Nat.eq_dec sch2 i) NI). rewrite Nat.add_0_r. reflexivity.
Qed.
Print Assumptions C32_buffers_stable.
(** calls that share parties but do not overlap in time: whatever the other calls did before (and do after), the call returns its own product *)
Theorem C32_sequential : forall N pp crs pscale rs (ts : list (thread N)) h i t sch1 sch2, wfp N pp -> (forall t, In t ts -> call_ready pp rs t) -> pools_ok pp rs h ->
  nth_error ts i = Some t -> ~ In i sch1 -> ~ In i sch2 ->
  (forall n r, returned pp crs pscale rs (sch1 ++ repeat i n ++ sch2) ts h i = Some r -> r = own_product pp crs pscale rs t) /\
  exists n, returned pp crs pscale rs (sch1 ++ repeat i n ++ sch2) ts h i = Some (own_product pp crs pscale rs t).
Proof.
  intros N pp crs pscale rs ts h i t sch1 sch2 WF RD PO Ei N1 N2. pose proof (RD t (nth_error_In _ _ Ei)) as Rt. destruct (ready_prog pp rs t Rt) as [_ T0].
  set (h1 := snd (schedule pp crs pscale rs sch1 ts h)).
  assert (P1 : pools_ok pp rs h1) by (apply (sched_sized pp WF crs pscale rs sch1 ts h); [intros x Hx; apply (ready_good pp rs); apply RD; exact Hx|exact PO]).
  destruct (solo_ok pp WF crs pscale rs t h1 Rt P1) as (n & En).
  assert (X : forall n, returned pp crs pscale rs (sch1 ++ repeat i n ++ sch2) ts h i = tout (fst (solo pp crs pscale rs n (t, h1)))).
  { intros m. unfold returned. rewrite !schedule_app. rewrite (sched_other pp crs pscale rs sch2 i N2). fold h1.
    rewrite (sched_alone pp crs pscale rs i m _ h1 t); [reflexivity|]. rewrite (sched_other pp crs pscale rs sch1 i N1). exact Ei. }
  split; [|exists n; rewrite X; exact En]. intros m r H. rewrite X in H. apply (solo_same pp crs pscale rs _ n t h1 r T0) in H. rewrite Nat.add_comm in H. rewrite (solo_same pp crs pscale rs _ _ t h1 _ T0 En) in H. congruence.
Qed.
Print Assumptions C32_sequential.
