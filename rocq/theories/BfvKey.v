(** mkbfv key generation (mkbfv/keygen.go:24-162): what the relinearisation key encrypts. *)
From Verif Require Import Base IdSetModel KeySetModel NumTheory Negacyclic Ntt Word BasisExt BasisExtProofs DecompProofs Rows RlweModel SchemeSpec ExtProd ExtProps KeyGenModel Galois KeyGenProofs CtModel KeySwitchModel BfvModel BfvMulModel BfvConv BfvGadget BfvDig.
From Coq Require Import Znumtheory Setoid Morphisms.
Open Scope Z_scope.

Section Key.
  Context {N : nat} (b : bparams) (WB : wfb N b).
  Notation R := (R N).
  Notation n := (length (bQ b)). Notation al := (alpha (ppQ b)). Notation pp := (ppQ b). Notation L := (maxLevel (ppQ b)). Notation be := (bbeta b).
  Hypothesis HD : (n mod al = 0)%nat.
  Let WF : wfp N pp := wf_ppQ b WB.
  Add Ring R_ring32 : (@R_ring_theory N).

  (** the two halves of the common reference string as one family *)
  Definition crs2 (a1 a2 : swk N) (k : nat) (i : mi) : R := if (k <? be)%nat then swk_val pp a1 k i else swk_val pp a2 (k - be) i.

  (** a relinearisation key of the holder of s: for every block k of R, b_k = e - s a_k and d_k = e + g_k s - r a_k; v as in mkrlwe *)
  Definition brelin_ok (a1 a2 u : swk N) (s r : R) B T (key : bRelinKey N) : Prop :=
    exists eb ed ev : nat -> R,
      ((be <= length (br_b1 key))%nat /\ (be <= length (br_b2 key))%nat /\ (be <= length (br_d1 key))%nat /\ (be <= length (br_d2 key))%nat /\ (be <= length (br_v key))%nat) /\ bnd s T /\ bnd r T /\
      (forall k, (k < be + be)%nat -> bnd (eb k) B /\ bnd (ed k) B /\
        mval pp L (pick b (br_b1 key) (br_b2 key) k) (fun i => sub (eb k) (mul s (crs2 a1 a2 k i))) /\
        mval pp L (pick b (br_d1 key) (br_d2 key) k) (fun i => sub (add (ed k) (smul (gk b k) s)) (mul r (crs2 a1 a2 k i)))) /\
      forall k, (k < be)%nat -> bnd (ev k) B /\
        mval pp L (nth k (br_v key) dQP) (fun i => opp (add (add (ev k) (mul (gad pp k i) r)) (mul s (swk_val pp u k i)))).

  Lemma genB_ok B (e : nat -> R) (smp : nat -> list R) a sk (s : R) : small_ok pp B -> (forall k, (k < be)%nat -> is_sample pp B (e k) (smp k)) ->
    mval pp L sk (fun _ => s) -> crs_ok pp a ->
    exists x, genB b a sk smp = Ok x /\ length x = be /\ forall k, (k < be)%nat -> mval pp L (nth k x dQP) (fun i => sub (e k) (mul s (swk_val pp a k i))).
  Proof.
    intros S H K CA. unfold genB. fold be.
    rewrite (rmapM_map _ (fun k => lvl1 pp L r_mform (lvl2 pp L r_sub (GenGaussianError pp (smp k)) (lvl1 pp L r_invmform (lvl2 pp L r_mont (nth k a dQP) sk))))).
    2:{ intros k Hk. apply in_seq in Hk. rewrite (idx_nth a k dQP) by (destruct CA; unfold bbeta in Hk; lia). reflexivity. }
    eexists. split; [reflexivity|]. split; [rewrite map_length, seq_length; reflexivity|].
    intros k Hk i V. rewrite (nth_map' _ _ _ 0%nat) by (rewrite seq_length; assumption). rewrite seq_nth by assumption. cbn [plus].
    pose proof (okm_of pp WF i V) as KM. destruct (K i V) as [K1 K2].
    destruct (swk_mval pp WF a k CA Hk i V) as [A1 A2]. rewrite fqp_lvl1, fqp_lvl2, fqp_lvl1, fqp_lvl2 by assumption.
    destruct (gauss_ok pp WF B (e k) (smp k) i S ltac:(apply H; assumption) V) as [G1 G2].
    pose proof (inr_wrd _ _ (proj2 KM) K1) as KW.
    destruct (r_mont_ok (md pp i) (fqp (nth k a dQP) i) (fqp sk i) (proj2 KM) A1 KW) as [M1 _].
    pose proof (repM_mont _ _ _ _ _ KM A1 KW A2 K2) as M2.
    destruct (r_invmform_ok (md pp i) _ (proj2 KM) (canon_wrd _ _ (proj2 KM) M1)) as [I1 _].
    pose proof (repM_invmform _ _ _ KM (canon_wrd _ _ (proj2 KM) M1) M2) as I2.
    destruct (r_sub_ok (md pp i) _ _ (proj2 KM) (canon_inr _ _ G1) (canon_inr _ _ I1)) as [S1 _].
    pose proof (rep_sub _ _ _ _ _ KM (canon_inr _ _ G1) (canon_inr _ _ I1) G2 I2) as S2.
    pose proof (inr_wrd _ _ (proj2 KM) S1) as SW.
    split; [apply canon_inr; apply r_mform_ok; [apply KM|assumption]|].
    apply (repM_eqm _ _ _ _ (rep_mform _ _ _ KM SW S2)). apply eqm_eq; ring.
  Qed.

  Lemma bfvDigit_ok B e smp sk (s : R) g : small_ok pp B -> is_sample pp B e smp -> mval pp L sk (fun _ => s) -> mval pp L (bfvDigit b sk g smp) (fun _ => add e (smul g s)).
  Proof.
    intros S H K i V. unfold bfvDigit. rewrite fqp_lvl1, fqp_lvl2, fqp_lvl1, fqp_lvl1 by assumption.
    pose proof (okm_of pp WF i V) as KM. destruct (K i V) as [K1 K2]. destruct (gauss_ok pp WF B e smp i S H V) as [G1 G2].
    pose proof (inr_wrd _ _ (proj2 KM) K1) as KW. destruct (r_invmform_ok (md pp i) _ (proj2 KM) KW) as [I1 _]. pose proof (repM_invmform _ _ _ KM KW K2) as I2.
    pose proof (canon_wrd _ _ (proj2 KM) I1) as IW. destruct (r_scal_row (md pp i) g _ (proj2 KM) IW) as [C1 _]. pose proof (rep_scal (md pp i) g _ _ KM IW I2) as C2.
    destruct (r_add_ok (md pp i) _ _ (proj2 KM) (canon_inr _ _ C1) (canon_inr _ _ G1)) as [S1 _].
    pose proof (rep_add _ _ _ _ _ KM (canon_inr _ _ C1) (canon_inr _ _ G1) C2 G2) as S2. pose proof (inr_wrd _ _ (proj2 KM) S1) as SW.
    split; [apply canon_inr; apply r_mform_ok; [apply KM|assumption]|]. apply (repM_eqm _ _ _ _ (rep_mform _ _ _ KM SW S2)). apply eqm_eq. ring.
  Qed.

  Lemma GenBFVSwitchingKey_ok B (e : nat -> R) (smp1 smp2 : nat -> list R) sk (s : R) : small_ok pp B ->
    (forall k, (k < be)%nat -> is_sample pp B (e k) (smp1 k) /\ is_sample pp B (e (be + k)%nat) (smp2 k)) -> mval pp L sk (fun _ => s) ->
    exists k1 k2, GenBFVSwitchingKey b sk smp1 smp2 = Ok (k1, k2) /\ length k1 = be /\ length k2 = be /\
      forall k, (k < be + be)%nat -> mval pp L (pick b k1 k2 k) (fun _ => add (e k) (smul (gk b k) s)).
  Proof.
    intros S H K. unfold GenBFVSwitchingKey. fold be.
    rewrite (rmapM_map _ (fun i => bfvDigit b sk (gk b i) (smp1 i))) by (intros i Hi; apply in_seq in Hi; rewrite (gadInt_Q b WB HD) by lia; reflexivity). cbn [rbind].
    rewrite (rmapM_map _ (fun i => bfvDigit b sk (gk b (be + i)) (smp2 i))) by (intros i Hi; apply in_seq in Hi; rewrite (gadInt_M b WB HD) by lia; reflexivity). cbn [rbind].
    do 2 eexists. split; [reflexivity|]. split; [rewrite map_length, seq_length; reflexivity|]. split; [rewrite map_length, seq_length; reflexivity|].
    intros k Hk. destruct (Nat.ltb_spec k be) as [C|C].
    - rewrite pick_lo by assumption. rewrite (nth_map' _ _ _ 0%nat) by (rewrite seq_length; assumption). rewrite seq_nth by assumption. cbn [plus]. apply (bfvDigit_ok B); trivial. apply H. assumption.
    - replace k with (be + (k - be))%nat by lia. rewrite pick_hi. rewrite (nth_map' _ _ _ 0%nat) by (rewrite seq_length; lia). rewrite seq_nth by lia. cbn [plus]. apply (bfvDigit_ok B); trivial. apply H. lia.
  Qed.

  Theorem bGenRelinearizationKey_ok B T (eb ed ev : nat -> R) (sb1 sb2 sd1 sd2 sv : nat -> list R) crs a1 a2 u sk r s rr : small_ok pp B ->
    (forall k, (k < be)%nat -> is_sample pp B (eb k) (sb1 k) /\ is_sample pp B (eb (be + k)%nat) (sb2 k) /\ is_sample pp B (ed k) (sd1 k) /\ is_sample pp B (ed (be + k)%nat) (sd2 k) /\ is_sample pp B (ev k) (sv k)) ->
    mval pp L (sk_val sk) (fun _ => s) -> mval pp L (sk_val r) (fun _ => rr) -> bnd s T -> bnd rr T ->
    mget Z.eq_dec crs 0 = Some a1 -> mget Z.eq_dec crs (-3) = Some a2 -> mget Z.eq_dec crs (-1) = Some u -> crs_ok pp a1 -> crs_ok pp a2 -> crs_ok pp u ->
    exists key, bGenRelinearizationKey b crs sk r sb1 sb2 sd1 sd2 sv = Ok key /\ br_id key = sk_id sk /\ brelin_ok a1 a2 u s rr B T key.
  Proof.
    intros S H K KR BS BR G1 G2 GU C1 C2 CU. unfold bGenRelinearizationKey, crs_get. rewrite G1, G2, GU. cbn [rbind].
    destruct (genB_ok B eb sb1 a1 (sk_val sk) s S ltac:(intros; apply H; assumption) K C1) as (b1 & E1 & L1 & M1). rewrite E1. cbn [rbind].
    destruct (genB_ok B (fun k => eb (be + k)%nat) sb2 a2 (sk_val sk) s S ltac:(intros k Hk; cbv beta; apply H; assumption) K C2) as (b2 & E2 & L2 & M2). rewrite E2. cbn [rbind].
    destruct (GenBFVSwitchingKey_ok B ed sd1 sd2 (sk_val sk) s S ltac:(intros k Hk; destruct (H k Hk) as (_ & _ & ? & ? & _); split; assumption) K) as (k1 & k2 & E3 & L3 & L4 & M3). rewrite E3. cbn [rbind].
    pose proof (proj1 C1) as LC1. pose proof (proj1 C2) as LC2. pose proof (proj1 CU) as LCU. fold be in LC1, LC2, LCU.
    destruct (GenSwitchingKey_ok pp WF B ev sv (sk_val r) rr S ltac:(intros k Hk; destruct (H k Hk) as (_ & _ & _ & _ & ?); assumption) KR) as [LV HV]. fold be in LV, HV.
    rewrite swk_zip_ok by (fold be; lia). cbn [rbind]. rewrite swk_zip_ok by (fold be; lia). cbn [rbind]. rewrite swk_zip_ok by (fold be; lia). cbn [rbind]. fold be.
    eexists. split; [reflexivity|]. split; [reflexivity|]. exists eb, ed, ev. cbn [br_b1 br_b2 br_d1 br_d2 br_v]. rewrite !tab_length, L1, L2.
    split; [lia|]. split; [assumption|]. split; [assumption|]. split.
    - intros k Hk. unfold crs2. destruct (Nat.ltb_spec k be) as [C|C].
      + rewrite !pick_lo by assumption. destruct (H k C) as ((B1 & _) & _ & (B2 & _) & _). split; [apply B1|]. split; [apply B2|]. split; [apply M1; assumption|].
        rewrite nth_tab by assumption. intros i V. pose proof (okm_of pp WF i V) as KM. destruct (KR i V) as [R1 R2]. destruct (swk_mval pp WF a1 k C1 C i V) as [A1 A2]. rewrite fqp_lvl3 by assumption.
        specialize (M3 k Hk). rewrite pick_lo in M3 by assumption. destruct (M3 i V) as [D1 D2].
        destruct (repM_mont_sub (md pp i) _ _ _ _ _ _ KM A1 (inr_wrd _ _ (proj2 KM) R1) D1 A2 R2 D2) as [X Y]. split; [assumption|]. apply (repM_eqm _ _ _ _ Y). apply eqm_eq; ring.
      + set (k' := (k - be)%nat). assert (Ek' : k = (be + k')%nat) by (unfold k'; lia). assert (Hk' : (k' < be)%nat) by lia. rewrite Ek' in *. rewrite !pick_hi.
        destruct (H k' Hk') as (_ & (B1 & _) & _ & (B2 & _) & _). split; [apply B1|]. split; [apply B2|]. split; [apply (M2 k' Hk')|].
        rewrite nth_tab by assumption. intros i V. pose proof (okm_of pp WF i V) as KM. destruct (KR i V) as [R1 R2]. destruct (swk_mval pp WF a2 k' C2 Hk' i V) as [A1 A2]. rewrite fqp_lvl3 by assumption.
        specialize (M3 (be + k')%nat Hk). rewrite pick_hi in M3. destruct (M3 i V) as [D1 D2].
        destruct (repM_mont_sub (md pp i) _ _ _ _ _ _ KM A1 (inr_wrd _ _ (proj2 KM) R1) D1 A2 R2 D2) as [X Y]. split; [assumption|]. apply (repM_eqm _ _ _ _ Y). apply eqm_eq; ring.
    - intros k Hk. destruct (H k Hk) as (_ & _ & _ & _ & (B1 & _)). split; [apply B1|]. rewrite nth_tab by assumption. intros i V.
      pose proof (okm_of pp WF i V) as KM. destruct (K i V) as [K1 K2]. destruct (swk_mval pp WF u k CU Hk i V) as [A1 A2]. rewrite fqp_lvl1, fqp_lvl3 by assumption. destruct (HV k Hk i V) as [D1 D2].
      destruct (repM_mont_add (md pp i) _ _ _ _ _ _ KM A1 (inr_wrd _ _ (proj2 KM) K1) D1 A2 K2 D2) as [X Y].
      split; [apply r_neg_ok; [apply KM|assumption]|]. apply (repM_eqm _ _ _ _ (repM_neg _ _ _ KM X Y)). apply eqm_eq; ring.
  Qed.
End Key.

(** a chain whose length alpha does not divide: key generation panics *)
Lemma rmapM_panic {A B} (f : A -> res B) l x : In x l -> f x = Panic -> rmapM f l = Panic.
Proof.
  induction l as [|y l IH]; intros I E; [destruct I|]. cbn. destruct I as [->|I]; [rewrite E; reflexivity|]. destruct (f y); cbn; [|reflexivity]. rewrite (IH I E). reflexivity.
Qed.
Theorem bGenRelinearizationKey_panic {N} b (WB : wfb N b) crs (sk r : secretKey N) e1 e2 e3 e4 e5 : (length (bQ b) mod alpha (ppQ b) <> 0)%nat ->
  bGenRelinearizationKey b crs sk r e1 e2 e3 e4 e5 = Panic.
Proof.
  intros H. destruct (gadInt_panic b WB H) as (i & Hi & E). unfold bGenRelinearizationKey.
  assert (G : GenBFVSwitchingKey b (sk_val sk) e3 e4 = Panic).
  { unfold GenBFVSwitchingKey. rewrite (rmapM_panic _ _ i); [reflexivity|apply in_seq; lia|]. rewrite E. reflexivity. }
  destruct (crs_get crs 0); cbn [rbind]; [|reflexivity]. destruct (crs_get crs (-3)); cbn [rbind]; [|reflexivity]. destruct (crs_get crs (-1)); cbn [rbind]; [|reflexivity].
  destruct (genB b _ _ e1); cbn [rbind]; [|reflexivity]. destruct (genB b _ _ e2); cbn [rbind]; [|reflexivity]. rewrite G. reflexivity.
Qed.
