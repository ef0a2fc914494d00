(** Encryption and decryption (C14, C15). *)
From Verif Require Import Base IdSetModel NumTheory Negacyclic Ntt Word BasisExt BasisExtProofs Rows RlweModel KeyGenModel SchemeSpec ExtProd ExtProps Galois KeyGenProofs CtModel CtSpec CtProofs.
From Coq Require Import Znumtheory Setoid Morphisms.
Open Scope Z_scope.

Section ED.
  Context {N : nat} (pp : rparams) (WF : wfp N pp).
  Notation R := (R N). Notation ct := (ctT N). Notation L := (maxLevel pp).
  Notation phase := (@phase N pp). Notation pvalue := (@pvalue N pp). Notation wfct := (@wfct N pp). Notation wfpoly := (@wfpoly N pp).
  Add Ring R_ring7 : (@R_ring_theory N).

  Lemma cget_cset (c : ct) id p x : cget (cset c id p) x = if string_dec x id then Ok p else cget c x.
  Proof. unfold cget, cset. rewrite mget_mset. destruct (seq_dec x id), (string_dec x id); try congruence; reflexivity. Qed.
  Lemma cget_eq (c : ct) id p : cget (cset c id p) id = Ok p.
  Proof. rewrite cget_cset. destruct (string_dec id id); congruence. Qed.
  Lemma cget_neq (c : ct) id p x : x <> id -> cget (cset c id p) x = cget c x.
  Proof. intros. rewrite cget_cset. destruct (string_dec x id); congruence. Qed.

  (** *** values *)
  Lemma pv_add level fl (a b : list R) j : (level < length (Qm pp))%nat -> (j <= level)%nat -> inr (Qi pp j) (row a j) -> inr (Qi pp j) (row b j) ->
    eqm (mq (Qi pp j)) (pvalue (Pol (lvlQ2 pp level r_add a b) fl) j) (add (pvalue (Pol a fl) j) (pvalue (Pol b fl) j)).
  Proof.
    intros HL Hj A B. pose proof (okQ pp WF j ltac:(lia)) as K. unfold CtSpec.pvalue. cbn [pntt prows]. rewrite row_lvlQ2 by assumption.
    destruct fl; [|apply r_add_ok; [apply K|assumption|assumption]].
    apply (rep_add (Qi pp j) (row a j) (row b j) (intt (Qi pp j) (row a j)) (intt (Qi pp j) (row b j)) K A B); unfold rep; reflexivity.
  Qed.
  Lemma pv_ntt level (a : list R) j : (level < length (Qm pp))%nat -> (j <= level)%nat ->
    eqm (mq (Qi pp j)) (pvalue (Pol (lvlQ1 pp level ntt a) true) j) (pvalue (Pol a false) j).
  Proof.
    intros HL Hj. pose proof (okQ pp WF j ltac:(lia)) as K. unfold CtSpec.pvalue. cbn [pntt prows]. rewrite row_lvlQ1 by assumption.
    apply intt_ntt. apply K.
  Qed.
  Lemma pv_intt level (a : list R) j : (j <= level)%nat -> pvalue (Pol (lvlQ1 pp level intt a) false) j = pvalue (Pol a true) j.
  Proof. intros Hj. unfold CtSpec.pvalue. cbn [pntt prows]. rewrite row_lvlQ1 by assumption. reflexivity. Qed.

  (** product with a secret key row *)
  Lemma skmul level fl (p : poly N) (sk : secretKey N) (s : R) : (level < length (Qm pp))%nat -> wfpoly level fl p -> mval pp L (sk_val sk) (fun _ => s) ->
    let x := if negb (pntt p) then lvlQ1 pp level ntt (prows p) else prows p in
    let y := lvlQ2 pp level r_mont x (qpQ (sk_val sk)) in
    let z := if negb (pntt p) then lvlQ1 pp level intt y else y in
    length z = S level /\ forall j, (j <= level)%nat -> canon (Qi pp j) (row z j) /\
      eqm (mq (Qi pp j)) (pvalue (Pol z fl) j) (mul (pvalue p j) s).
  Proof.
    intros HL (LP & FP & IP) M x y z. split; [unfold z; rewrite FP; destruct fl; cbn [negb]; unfold y; rewrite ?lvlQ1_len, ?lvlQ2_len; reflexivity|].
    intros j Hj. pose proof (okQ pp WF j ltac:(lia)) as K. destruct (M (MQ j)) as [M1 M2]; [cbn; unfold maxLevel; lia|]. cbn [md fqp] in M1, M2.
    assert (X : wrd (row x j) /\ rep (Qi pp j) (row x j) (pvalue p j)).
    { unfold x, CtSpec.pvalue. rewrite FP. destruct fl; cbn [negb].
      - split; [apply (inr_wrd (Qi pp j)); [apply K|apply IP; assumption]|]. unfold rep. reflexivity.
      - rewrite row_lvlQ1 by assumption. split; [apply (canon_wrd (Qi pp j)); [apply K|apply ntt_canon; assumption]|apply rep_ntt; assumption]. }
    destruct X as [X1 X2].
    assert (Y : canon (Qi pp j) (row y j) /\ rep (Qi pp j) (row y j) (mul (pvalue p j) s)).
    { unfold y. rewrite row_lvlQ2 by assumption. rewrite r_mont_comm. split; [apply r_mont_ok; [apply K|assumption|assumption]|].
      apply (rep_eqm _ _ (mul s (pvalue p j))); [apply rep_mont; assumption|]. apply eqm_eq. ring. }
    destruct Y as [Y1 Y2]. unfold z. rewrite FP. unfold CtSpec.pvalue at 1. cbn [pntt prows]. destruct fl; cbn [negb].
    - split; assumption.
    - rewrite row_lvlQ1 by assumption. split; [apply intt_canon; assumption|exact Y2].
  Qed.

  Lemma PartialDecrypt_eq (c : ct) sk level fl : wfct level fl c -> sk_id sk <> id0 -> In (sk_id sk) (keys c) ->
    let p := comp c (sk_id sk) in
    let x := if negb (pntt p) then lvlQ1 pp level ntt (prows p) else prows p in
    let y := lvlQ2 pp level r_mont x (qpQ (sk_val sk)) in
    let z := if negb (pntt p) then lvlQ1 pp level intt y else y in
    exists c', PartialDecrypt pp c sk = Ok c' /\ mwf c' /\
      forall x, mget seq_dec c' x = if string_dec x (sk_id sk) then None else
        if string_dec x id0 then Some (Pol (lvlQ2 pp level r_add (prows (comp c id0)) z) fl) else mget seq_dec c x.
  Proof.
    intros W N0 I p x y z. pose proof (wfct_comp pp _ _ _ _ W I) as (_ & FP & _). fold p in FP.
    pose proof W as (W1 & W2 & W3). pose proof (wfct_comp pp _ _ _ _ W W2) as (_ & F0 & _).
    unfold PartialDecrypt. rewrite (wfct_level pp _ _ _ W). cbn [rbind]. rewrite (cget_comp _ _ I). fold p. cbn [rbind].
    set (id := sk_id sk) in *. fold x.
    assert (E1 : cget (if negb (pntt p) then cset c id (Pol (lvlQ1 pp level ntt (prows p)) (pntt p)) else c) id = Ok (Pol x (pntt p))).
    { unfold x. destruct (pntt p) eqn:Ep; cbn [negb]; [|apply cget_eq]. rewrite (cget_comp _ _ I). fold p. destruct p; cbn in *. congruence. }
    rewrite E1. cbn [rbind pntt prows]. fold y. rewrite cget_eq. cbn [rbind pntt prows].
    set (c1 := cset _ id (Pol y (pntt p))).
    assert (E2 : forall q, mget seq_dec c1 q = if string_dec q id then Some (Pol y (pntt p)) else mget seq_dec c q).
    { intros q. unfold c1, cset. rewrite mget_mset. destruct (seq_dec q id), (string_dec q id); try congruence.
      destruct (negb (pntt p)); [|reflexivity]. unfold cset. rewrite mget_mset. destruct (seq_dec q id); congruence. }
    assert (W1c : mwf c1) by (unfold c1; apply mwf_mset; destruct (negb (pntt p)); [apply mwf_mset|]; assumption).
    set (c2 := if negb (pntt p) then cset c1 id (Pol (lvlQ1 pp level intt y) (pntt p)) else c1).
    assert (E3 : forall q, mget seq_dec c2 q = if string_dec q id then Some (Pol z (pntt p)) else mget seq_dec c q).
    { intros q. unfold c2, z. destruct (negb (pntt p)); [|apply E2]. unfold cset. rewrite mget_mset. destruct (seq_dec q id), (string_dec q id); try congruence.
      rewrite E2. destruct (string_dec q id); congruence. }
    assert (W2c : mwf c2) by (unfold c2; destruct (negb (pntt p)); [apply mwf_mset|]; assumption).
    assert (E4 : cget c2 id0 = Ok (comp c id0)).
    { unfold cget. rewrite E3. destruct (string_dec id0 id); [congruence|]. rewrite (mget_comp _ _ W2). reflexivity. }
    assert (E5 : cget c2 id = Ok (Pol z (pntt p))) by (unfold cget; rewrite E3; destruct (string_dec id id); congruence).
    rewrite E4. cbn [rbind]. rewrite E5. cbn [rbind prows]. eexists. split; [reflexivity|]. split; [apply mwf_mdel; apply mwf_mset; assumption|].
    intros q. rewrite mget_mdel. destruct (seq_dec q id), (string_dec q id); try congruence. unfold cset. rewrite mget_mset, E3, F0.
    destruct (seq_dec q id0), (string_dec q id0); try congruence. destruct (string_dec q id); congruence.
  Qed.

  Theorem PartialDecrypt_ok level fl (c : ct) sk (s : string -> R) : (level < length (Qm pp))%nat -> wfct level fl c -> sk_id sk <> id0 -> In (sk_id sk) (keys c) ->
    mval pp L (sk_val sk) (fun _ => s (sk_id sk)) ->
    exists c', PartialDecrypt pp c sk = Ok c' /\ wfct level fl c' /\ (forall x, In x (keys c') <-> x <> sk_id sk /\ In x (keys c)) /\
      (forall j, (j <= level)%nat -> eqm (mq (Qi pp j)) (phase s c' j) (phase s c j)) /\
      (forall j, (j <= level)%nat -> canon (Qi pp j) (row (prows (comp c' id0)) j)) /\
      (forall x, x <> sk_id sk -> x <> id0 -> mget seq_dec c' x = mget seq_dec c x).
  Proof.
    intros HL W N0 I M. destruct (PartialDecrypt_eq c sk level fl W N0 I) as (c' & E & Wc & G). exists c'. split; [exact E|].
    pose proof (wfct_comp pp _ _ _ _ W I) as WP. pose proof W as (W1 & W2 & W3). pose proof (wfct_comp pp _ _ _ _ W W2) as W0.
    destruct (skmul level fl (comp c (sk_id sk)) sk (s (sk_id sk)) HL WP M) as [LZ HZ].
    set (z := if negb (pntt (comp c (sk_id sk))) then _ else _) in *. set (id := sk_id sk) in *.
    assert (KC : forall x, In x (keys c') <-> x <> id /\ In x (keys c)).
    { intros x. rewrite <- !(mget_In_keys seq_dec), G. destruct (string_dec x id); [split; intuition congruence|].
      destruct (string_dec x id0) as [->|]; [|tauto]. rewrite (mget_comp _ _ W2). split; [intros _; split; [assumption|discriminate]|intros _; discriminate]. }
    assert (C0 : comp c' id0 = Pol (lvlQ2 pp level r_add (prows (comp c id0)) z) fl).
    { unfold comp at 1. rewrite G. destruct (string_dec id0 id); [congruence|]. destruct (string_dec id0 id0); [reflexivity|congruence]. }
    assert (WF0 : wfpoly level fl (Pol (lvlQ2 pp level r_add (prows (comp c id0)) z) fl)).
    { apply wfpoly_tab. intros j Hj. apply r_add_ok; [apply (okQ pp WF j ltac:(lia))|apply W0; assumption|apply canon_inr; apply HZ; assumption]. }
    split; [|split; [exact KC|split; [|split]]].
    - split; [assumption|]. split; [apply KC; split; [congruence|assumption]|]. intros x q. rewrite G. destruct (string_dec x id); [discriminate|].
      destruct (string_dec x id0); [intros [= <-]; assumption|apply W3].
    - intros j Hj.
      assert (IP : In id (parties c)) by (apply in_parties; split; assumption).
      destruct (in_split _ _ IP) as (l1 & l2 & EL).
      assert (ND : NoDup (l1 ++ id :: l2)) by (rewrite <- EL; apply parties_nodup; assumption).
      rewrite (phase_list pp s c' j (l1 ++ l2)).
      + unfold CtSpec.phase. rewrite EL. rewrite !Lsum_app. cbn [Lsum]. rewrite C0.
        destruct (HZ j Hj) as [HZ1 HZ2].
        rewrite (pv_add level fl _ z j HL Hj) by (try apply W0; try apply canon_inr; assumption). rewrite HZ2.
        assert (EC : forall x, In x (l1 ++ l2) -> comp c' x = comp c x).
        { intros x Hx. unfold comp. rewrite G. destruct (string_dec x id) as [->|]; [exfalso; revert Hx; apply NoDup_remove_2; assumption|].
          destruct (string_dec x id0) as [->|]; [|reflexivity]. exfalso.
          assert (In id0 (parties c)) by (rewrite EL; apply in_app_or in Hx; apply in_or_app; destruct Hx; [left|right; right]; assumption).
          apply in_parties in H. tauto. }
        rewrite (Lsum_ext l1 (fun id => mul (pvalue (comp c' id) j) (s id)) (fun id => mul (pvalue (comp c id) j) (s id))) by (intros; rewrite EC by (apply in_or_app; auto); reflexivity).
        rewrite (Lsum_ext l2 (fun id => mul (pvalue (comp c' id) j) (s id)) (fun id => mul (pvalue (comp c id) j) (s id))) by (intros; rewrite EC by (apply in_or_app; auto); reflexivity).
        destruct W0 as (_ & F0 & _). replace (pvalue (Pol (prows (comp c id0)) fl) j) with (pvalue (comp c id0) j) by (unfold CtSpec.pvalue; cbn; rewrite F0; reflexivity).
        apply eqm_eq. ring.
      + assumption.
      + apply NoDup_remove_1 in ND. assumption.
      + intros x. rewrite KC. assert (X : In x (l1 ++ l2) <-> x <> id /\ In x (parties c)).
        { rewrite EL. rewrite !in_app_iff. cbn [In]. split; [|intuition congruence].
          intros Hx. split; [intros ->; apply NoDup_remove_2 in ND; apply ND; apply in_or_app; assumption|tauto]. }
        rewrite X, in_parties. tauto.
    - intros j Hj. rewrite C0. cbn [prows]. rewrite row_lvlQ2 by assumption. apply r_add_canon; [apply (okQ pp WF j ltac:(lia))|apply W0; assumption|apply HZ; assumption].
    - intros x X1 X2. rewrite G. destruct (string_dec x id); [congruence|]. destruct (string_dec x id0); congruence.
  Qed.

  (** *** Decrypt *)
  Lemma decLoop_ok level fl (s : string -> R) I ids sks : (level < length (Qm pp))%nat -> keys_ok pp I s sks -> forall l (c : ct), wfct level fl c -> NoDup l -> incl l (keys sks) ->
    (forall x, x <> id0 -> In x (keys c) -> I x) ->
    (forall x, In x l -> is_has ids x = true <-> x <> id0 /\ In x (keys c)) ->
    exists c', decLoop pp ids sks l c = Ok c' /\ wfct level fl c' /\ (forall x, In x (keys c') <-> In x (keys c) /\ (In x l -> x = id0)) /\
      forall j, (j <= level)%nat -> eqm (mq (Qi pp j)) (phase s c' j) (phase s c j).
  Proof.
    intros HL [_ KO]. induction l as [|id l IH]; intros c W ND IN HI H.
    - exists c. split; [reflexivity|]. split; [assumption|]. split; [cbn; tauto|]. reflexivity.
    - unfold decLoop. cbn [rfold]. inversion ND as [|? ? NI ND']; subst.
      assert (Ik : In id (keys sks)) by (apply IN; left; reflexivity). apply (mget_In_keys seq_dec) in Ik.
      destruct (mget seq_dec sks id) as [sk|] eqn:Ek; [|congruence]. destruct (KO _ _ Ek) as [SI SM].
      destruct (is_has ids (sk_id sk)) eqn:Eh.
      + apply H in Eh; [|rewrite SI; left; reflexivity]. destruct Eh as [E1 E2].
        destruct (PartialDecrypt_ok level fl c sk s HL W E1 E2) as (c1 & P1 & P2 & P3 & P4 & _ & _); [rewrite SI in *; apply SM; apply HI; assumption|].
        rewrite P1. cbn [rbind]. rewrite SI in *.
        destruct (IH c1 P2 ND') as (c' & Q1 & Q2 & Q3 & Q4).
        * intros x Hx. apply IN. right. assumption.
        * intros x X0 Hx. apply HI; [assumption|]. apply P3 in Hx. apply Hx.
        * intros x Hx. rewrite (H x (or_intror Hx)), P3. assert (x <> id) by congruence. tauto.
        * unfold decLoop in Q1. exists c'. split; [exact Q1|]. split; [assumption|]. split.
          -- intros x. rewrite Q3, P3. cbn [In]. split;
               [|intros [A B]; split; [split; [intros ->; apply E1; apply B; left; reflexivity|assumption]|intros D; apply B; right; assumption]]. intros [[A B] C]. split; [assumption|]. intros [D|D]; [congruence|auto].
          -- intros j Hj. rewrite Q4, P4 by assumption. reflexivity.
      + cbn [rbind]. destruct (IH c W ND') as (c' & Q1 & Q2 & Q3 & Q4).
        * intros x Hx. apply IN. right. assumption.
        * assumption.
        * intros x Hx. apply (H x (or_intror Hx)).
        * unfold decLoop in Q1. exists c'. split; [exact Q1|]. split; [assumption|]. split; [|assumption].
          intros x. rewrite Q3. cbn [In]. split; [|tauto]. intros [A B]. split; [assumption|]. intros [D|D]; [|auto]. subst x.
          destruct (string_dec id id0) as [|n]; [assumption|]. exfalso. rewrite SI in Eh.
          assert (is_has ids id = true) by (apply H; [left; reflexivity|split; assumption]). congruence.
  Qed.

  Lemma keys_single (c : ct) : mwf c -> In id0 (keys c) -> ((1 <? length c)%nat = true <-> exists x, x <> id0 /\ In x (keys c)).
  Proof.
    intros W I. destruct c as [|[k1 v1] c]; [destruct I|]. destruct c as [|[k2 v2] c].
    - cbn in *. split; [discriminate|]. intros (x & A & B). intuition congruence.
    - cbn [length]. split; [intros _|reflexivity]. inversion W as [|? ? NI _]; subst. cbn in NI.
      destruct (string_dec k1 id0) as [->|n]; [exists k2; split; [intros ->; apply NI; left; reflexivity|cbn; tauto]|exists k1; split; [assumption|cbn; tauto]].
  Qed.
  Lemma r_reduce_ok m (a : R) : okq (mq m) -> canon m (r_reduce m a) /\ eqm (mq m) (r_reduce m a) a.
  Proof.
    intros K. apply okq_lt in K. split.
    - intros i Hi. unfold r_reduce. rewrite co_mkR by assumption. apply Z.mod_pos_bound. lia.
    - apply eqm_co. intros i Hi. unfold r_reduce. rewrite co_mkR by assumption. apply (eqz_mod (mq m)).
  Qed.

  Theorem Decrypt_ok level fl (o : IdSetModel.order) (c : ct) s sks (pt : poly N) : (level < length (Qm pp))%nat -> order_ok o -> wfct level fl c -> keys_ok pp (fun id => In id (parties c)) s sks ->
    let lv := Nat.min level (plevel pt) in
    (incl (parties c) (keys sks) ->
      exists p, Decrypt pp o c sks pt = Ok p /\ length (prows p) = S lv /\ pntt p = pntt pt /\
        forall j, (j <= lv)%nat -> canon (Qi pp j) (row (prows p) j) /\ eqm (mq (Qi pp j)) (pvalue (Pol (prows p) fl) j) (phase s c j)) /\
    (~ incl (parties c) (keys sks) -> Decrypt pp o c sks pt = Panic).
  Proof.
    intros HL OO W KO lv. pose proof W as (W1 & W2 & W3).
    destruct (CopyNew_ok (o 0%nat) c (OO 0%nat) W1 W2) as (c1 & C1 & C2 & C3).
    pose proof (wfct_ext pp level fl c c1 C2 C3 W) as Wc1.
    destruct (IDSetOf_ok (o 1%nat) c1 (OO 1%nat)) as (ids & D1 & D2 & D3).
    destruct (decLoop_ok level fl s _ ids sks HL KO (o 2%nat (keys sks)) c1 Wc1) as (c2 & E1 & E2 & E3 & E4).
    - apply (Permutation_NoDup (Permutation_sym (OO 2%nat (keys sks)))). apply KO.
    - intros x. apply (Permutation_in _ (OO 2%nat (keys sks))).
    - intros x X0 Hx. apply in_parties. split; [assumption|]. apply (mget_In_keys seq_dec). rewrite <- C3. apply (mget_In_keys seq_dec). assumption.
    - intros x Hx. apply D3.
    - assert (U : Decrypt pp o c sks pt = if (1 <? length c2)%nat then Panic else p0 <- cget c2 id0 ;; Ok (Pol (lvlQ1 pp lv r_reduce (prows p0)) (pntt pt))).
      { unfold Decrypt. rewrite (wfct_level pp _ _ _ W). cbn [rbind]. rewrite C1. cbn [rbind]. rewrite D1. cbn [rbind]. rewrite E1. reflexivity. }
      assert (KE : forall x, In x (keys c1) <-> In x (keys c)) by (intros x; rewrite <- !(mget_In_keys seq_dec), C3; reflexivity).
      assert (KS : forall x, In x (o 2%nat (keys sks)) <-> In x (keys sks)).
      { intros x. split; apply Permutation_in; [apply OO|apply Permutation_sym; apply OO]. }
      pose proof (keys_single c2 (proj1 E2) (proj1 (proj2 E2))) as S. split.
      + intros IN.
        assert (P0 : forall x, In x (keys c2) -> x = id0).
        { intros x Hx. apply E3 in Hx. destruct Hx as [A B]. destruct (string_dec x id0) as [|n]; [assumption|]. apply B. apply KS. apply IN. apply in_parties. split; [assumption|]. apply KE. assumption. }
        destruct (1 <? length c2)%nat eqn:E; [exfalso; destruct (proj1 S eq_refl) as (x & A & B); apply A; apply P0; assumption|].
        rewrite U, (cget_comp _ _ (proj1 (proj2 E2))). cbn [rbind]. eexists. split; [reflexivity|]. cbn [prows pntt]. split; [apply lvlQ1_len|]. split; [reflexivity|].
        intros j Hj. rewrite row_lvlQ1 by assumption. assert (Hj' : (j <= level)%nat) by (unfold lv in Hj; lia).
        pose proof (okQ pp WF j ltac:(lia)) as K. destruct (r_reduce_ok (Qi pp j) (row (prows (comp c2 id0)) j) (proj2 K)) as [R1 R2].
        split; [assumption|].
        assert (PH : phase s c2 j = pvalue (comp c2 id0) j).
        { rewrite (phase_list pp s c2 j nil); [cbn [Lsum]; ring|apply E2|constructor|].
          intros x. split; [intros []|]. intros [A B]. apply A. apply P0. assumption. }
        rewrite <- (phase_ext pp s c1 c j C2 W1 C3), <- (E4 j Hj'), PH.
        pose proof (wfct_comp pp _ _ _ _ E2 (proj1 (proj2 E2))) as (_ & F0 & _). unfold CtSpec.pvalue. cbn [pntt prows]. rewrite F0. rewrite row_lvlQ1 by assumption.
        destruct fl; [|exact R2]. apply eqm_eq. apply intt_eqm; [apply K|exact R2].
      + intros NI. rewrite U.
        assert (X : exists x, In x (parties c) /\ ~ In x (keys sks)).
        { destruct (Forall_dec (fun x => In x (keys sks)) (fun x => in_dec string_dec x (keys sks)) (parties c)) as [F|F].
          - exfalso. apply NI. intros x Hx. exact (proj1 (Forall_forall _ _) F x Hx).
          - apply neg_Forall_Exists_neg in F; [|intros x; apply in_dec; apply string_dec]. apply Exists_exists in F. exact F. }
        destruct X as (x & A & B). apply in_parties in A. destruct A as [A1 A2].
        replace (1 <? length c2)%nat with true; [reflexivity|]. symmetry. apply S. exists x. split; [assumption|]. apply E3. split; [apply KE; assumption|].
        intros C. apply KS in C. contradiction.
  Qed.

  (** *** Encrypt *)
  Definition enc0 level (uM pk e : list R) (fl flp : bool) (pt : list R) : list R :=
    let c := lvlQ2 pp level r_mont uM pk in
    if fl then (if negb flp then lvlQ2 pp level r_add c (lvlQ1 pp level ntt (lvlQ2 pp level r_add e pt))
                else lvlQ2 pp level r_add (lvlQ2 pp level r_add c (lvlQ1 pp level ntt e)) pt)
    else lvlQ2 pp level r_add (lvlQ2 pp level r_add (lvlQ1 pp level intt c) e) (if negb flp then pt else lvlQ1 pp level intt pt).
  Definition enc1 level (uM pk e : list R) (fl : bool) : list R :=
    let c := lvlQ2 pp level r_mont uM pk in
    if fl then lvlQ2 pp level r_add c (lvlQ1 pp level ntt e) else lvlQ2 pp level r_add (lvlQ1 pp level intt c) e.

  Lemma Encrypt_eq (pt : poly N) pk (c : ct) u e0 e1 : pk_id pk <> id0 -> In id0 (keys c) -> In (pk_id pk) (keys c) -> mwf c ->
    let lv := Nat.min (plevel pt) (plevel (comp c id0)) in let fl := pntt (comp c id0) in
    let uM := lvlQ1 pp lv r_mform (lvlQ1 pp lv ntt u) in
    exists c', Encrypt pp pt pk c u e0 e1 = Ok c' /\ mwf c' /\
      forall x, mget seq_dec c' x = if string_dec x id0 then Some (Pol (enc0 lv uM (qpQ (pk0 pk)) e0 fl (pntt pt) (prows pt)) fl) else
        if string_dec x (pk_id pk) then Some (Pol (enc1 lv uM (qpQ (pk1 pk)) e1 fl) fl) else mget seq_dec c x.
  Proof.
    intros N0 I0 I1 W lv fl uM. unfold Encrypt. rewrite (cget_comp _ _ I0). cbn [rbind]. fold lv. fold fl. fold uM.
    set (id := pk_id pk) in *.
    rewrite cget_neq by assumption. rewrite (cget_comp _ _ I1). cbn [rbind]. rewrite !cget_eq. cbn [rbind prows pntt].
    assert (NE : id0 <> id) by congruence.
    assert (FS : forall f (a b : list R), firstn (S lv) (lvlQ2 pp lv f a b) = lvlQ2 pp lv f a b) by (intros; apply firstn_all2; rewrite lvlQ2_len; lia).
    assert (G : forall (d : ct) (p q : poly N) x, mget seq_dec (cset (cset d id0 p) id q) x = if string_dec x id0 then Some p else if string_dec x id then Some q else mget seq_dec d x).
    { intros d p q x. unfold cset. rewrite !mget_mset. destruct (seq_dec x id), (seq_dec x id0), (string_dec x id0), (string_dec x id); congruence. }
    unfold enc0, enc1. destruct fl eqn:EF.
    - rewrite !(cget_neq _ id _ id0) by assumption. rewrite cget_eq. cbn [rbind prows pntt]. destruct (negb (pntt pt)); cbn [rbind];
        rewrite ?cget_eq, ?(cget_neq _ id0 _ id), ?cget_eq by assumption; cbn [rbind prows pntt];
        rewrite ?(cget_neq _ id _ id0) by assumption; rewrite ?cget_eq; cbn [rbind prows pntt];
        rewrite ?(cget_neq _ id0 _ id) by assumption; rewrite ?cget_eq; cbn [rbind prows pntt];
        (eexists; split; [reflexivity|]; split; [repeat apply mwf_mset; assumption|]);
        intros x; rewrite G, !FS; destruct (string_dec x id0); [reflexivity| |reflexivity|]; destruct (string_dec x id); try reflexivity;
        unfold cset; rewrite !mget_mset; destruct (seq_dec x id), (seq_dec x id0); congruence.
    - rewrite !(cget_neq _ id _ id0) by assumption. rewrite cget_eq. cbn [rbind prows pntt].
      rewrite !(cget_neq _ id0 _ id) by assumption. rewrite cget_eq. cbn [rbind prows pntt].
      rewrite !(cget_neq _ id _ id0) by assumption. rewrite cget_eq. cbn [rbind prows pntt].
      rewrite !(cget_neq _ id0 _ id) by assumption. rewrite cget_eq. cbn [rbind prows pntt].
      rewrite !(cget_neq _ id _ id0) by assumption. rewrite cget_eq. cbn [rbind prows pntt].
      rewrite !cget_eq. cbn [rbind prows pntt].
      rewrite !(cget_neq _ id0 _ id) by assumption. rewrite !cget_eq. cbn [rbind prows pntt].
      rewrite !(cget_neq _ id _ id0) by assumption. rewrite cget_eq. cbn [rbind prows pntt].
      rewrite !(cget_neq _ id0 _ id) by assumption. rewrite !cget_eq. cbn [rbind prows pntt].
      eexists; split; [reflexivity|]; split; [repeat apply mwf_mset; assumption|].
      intros x; rewrite G, !FS. destruct (string_dec x id0); [reflexivity|]. destruct (string_dec x id); try reflexivity.
      unfold cset; rewrite !mget_mset; destruct (seq_dec x id), (seq_dec x id0); congruence.
  Qed.

  Theorem Encrypt_ok (pt : poly N) pk (c : ct) su se0 se1 (u e0 e1 e s : R) (a : nat -> R) sec :
    let id := pk_id pk in let lv := Nat.min (plevel pt) (plevel (comp c id0)) in let fl := pntt (comp c id0) in
    (lv < length (Qm pp))%nat -> id <> id0 -> mwf c -> (forall x, In x (keys c) <-> x = id0 \/ x = id) ->
    (forall j, (j <= lv)%nat -> inr (Qi pp j) (row (prows pt) j)) ->
    (forall j, (j <= lv)%nat -> wrd (row su j) /\ eqm (mq (Qi pp j)) (row su j) u) ->
    (forall j, (j <= lv)%nat -> inr (Qi pp j) (row se0 j) /\ eqm (mq (Qi pp j)) (row se0 j) e0) ->
    (forall j, (j <= lv)%nat -> inr (Qi pp j) (row se1 j) /\ eqm (mq (Qi pp j)) (row se1 j) e1) ->
    (forall j, (j <= lv)%nat -> inr (Qi pp j) (row (qpQ (pk0 pk)) j) /\ rep (Qi pp j) (row (qpQ (pk0 pk)) j) (sub e (mul s (a j)))) ->
    (forall j, (j <= lv)%nat -> inr (Qi pp j) (row (qpQ (pk1 pk)) j) /\ rep (Qi pp j) (row (qpQ (pk1 pk)) j) (a j)) ->
    sec id = s ->
    exists c', Encrypt pp pt pk c su se0 se1 = Ok c' /\ wfct lv fl c' /\ (forall x, In x (keys c') <-> x = id0 \/ x = id) /\
      forall j, (j <= lv)%nat -> eqm (mq (Qi pp j)) (phase sec c' j) (add (pvalue pt j) (add e0 (add (mul u e) (mul e1 s)))).
  Proof.
    intros id lv fl HL N0 W KC HP HU H0 H1 K0 K1 HS.
    assert (I0 : In id0 (keys c)) by (apply KC; left; reflexivity). assert (I1 : In id (keys c)) by (apply KC; right; reflexivity).
    destruct (Encrypt_eq pt pk c su se0 se1 N0 I0 I1 W) as (c' & E & Wc & G). fold lv fl id in G.
    set (uM := lvlQ1 pp lv r_mform (lvlQ1 pp lv ntt su)) in *. exists c'. split; [exact E|].
    (* the product rows *)
    assert (UM : forall j, (j <= lv)%nat -> inr (Qi pp j) (row uM j) /\ repM (Qi pp j) (row uM j) u).
    { intros j Hj. pose proof (okQ pp WF j ltac:(lia)) as K. unfold uM. rewrite !row_lvlQ1 by assumption.
      pose proof (ntt_canon (Qi pp j) (row su j) K) as NC. split; [apply canon_inr; apply r_mform_ok; [apply K|apply (canon_wrd _ _ (proj2 K) NC)]|].
      apply rep_mform; [assumption|apply (canon_wrd _ _ (proj2 K) NC)|]. apply (rep_eqm _ _ (row su j)); [apply rep_ntt; assumption|]. apply HU. assumption. }
    assert (PR : forall (pkr : list R) x j, (j <= lv)%nat -> inr (Qi pp j) (row pkr j) -> rep (Qi pp j) (row pkr j) x ->
       canon (Qi pp j) (row (lvlQ2 pp lv r_mont uM pkr) j) /\ rep (Qi pp j) (row (lvlQ2 pp lv r_mont uM pkr) j) (mul u x)).
    { intros pkr x j Hj A B. pose proof (okQ pp WF j ltac:(lia)) as K. destruct (UM j Hj) as [U1 U2]. rewrite row_lvlQ2 by assumption.
      pose proof (inr_wrd _ _ (proj2 K) A). split; [apply r_mont_ok; [apply K|assumption|assumption]|]. apply rep_mont; assumption. }
    (* adding a coefficient-domain error to a row *)
    assert (V1 : forall (pkr er : list R) x ee j, (j <= lv)%nat -> inr (Qi pp j) (row pkr j) -> rep (Qi pp j) (row pkr j) x ->
       inr (Qi pp j) (row er j) -> eqm (mq (Qi pp j)) (row er j) ee ->
       inr (Qi pp j) (row (enc1 lv uM pkr er fl) j) /\ eqm (mq (Qi pp j)) (pvalue (Pol (enc1 lv uM pkr er fl) fl) j) (add (mul u x) ee)).
    { intros pkr er x ee j Hj A B C D. pose proof (okQ pp WF j ltac:(lia)) as K. destruct (PR pkr x j Hj A B) as [P1 P2]. unfold enc1. destruct fl.
      - pose proof (ntt_canon (Qi pp j) (row er j) K) as NC. split.
        + rewrite row_lvlQ2, row_lvlQ1 by assumption. apply r_add_ok; [apply K|apply canon_inr; assumption|apply canon_inr; assumption].
        + rewrite (pv_add lv true _ _ j HL Hj) by (try (rewrite row_lvlQ1 by assumption); apply canon_inr; assumption).
          apply eqm_add; [exact P2|]. rewrite (pv_ntt lv _ j HL Hj). exact D.
      - pose proof (intt_canon (Qi pp j) (row (lvlQ2 pp lv r_mont uM pkr) j) K) as IC. split.
        + rewrite row_lvlQ2, row_lvlQ1 by assumption. apply r_add_ok; [apply K|apply canon_inr; assumption|assumption].
        + rewrite (pv_add lv false _ _ j HL Hj) by (try (rewrite row_lvlQ1 by assumption); first [assumption | apply canon_inr; assumption]).
          apply eqm_add; [|exact D]. rewrite pv_intt by assumption. exact P2. }
    assert (V0 : forall j, (j <= lv)%nat -> inr (Qi pp j) (row (enc0 lv uM (qpQ (pk0 pk)) se0 fl (pntt pt) (prows pt)) j) /\
       eqm (mq (Qi pp j)) (pvalue (Pol (enc0 lv uM (qpQ (pk0 pk)) se0 fl (pntt pt) (prows pt)) fl) j) (add (pvalue pt j) (add (mul u (sub e (mul s (a j)))) e0))).
    { intros j Hj. pose proof (okQ pp WF j ltac:(lia)) as K. destruct (K0 j Hj) as [A B]. destruct (H0 j Hj) as [C D]. specialize (HP j Hj).
      destruct (PR _ _ j Hj A B) as [P1 P2]. destruct (V1 _ _ _ _ j Hj A B C D) as [X1 X2]. unfold enc0. unfold enc1 in X1, X2.
      assert (PV : forall b, pntt pt = b -> pvalue pt j = pvalue (Pol (prows pt) b) j) by (intros b <-; reflexivity).
      destruct fl, (pntt pt) eqn:EP; cbn [negb].
      - split.
        + rewrite row_lvlQ2 by assumption. apply r_add_ok; [apply K|assumption|assumption].
        + rewrite (pv_add lv true _ _ j HL Hj) by assumption. rewrite X2. rewrite (PV true eq_refl). apply eqm_eq. ring.
      - destruct (r_add_ok (Qi pp j) _ _ (proj2 K) C HP) as [Y1 Y2]. pose proof (ntt_canon (Qi pp j) (row (lvlQ2 pp lv r_add se0 (prows pt)) j) K) as NC. split.
        + rewrite row_lvlQ2, row_lvlQ1 by assumption. apply r_add_ok; [apply K|apply canon_inr; assumption|apply canon_inr; assumption].
        + rewrite (pv_add lv true _ _ j HL Hj) by (try (rewrite row_lvlQ1 by assumption); apply canon_inr; assumption).
          rewrite (pv_ntt lv _ j HL Hj). rewrite (pv_add lv false _ _ j HL Hj) by assumption. rewrite (PV false eq_refl).
          change (pvalue (Pol se0 false) j) with (row se0 j). rewrite D.
          change (pvalue (Pol (lvlQ2 pp lv r_mont uM (qpQ (pk0 pk))) true) j) with (intt (Qi pp j) (row (lvlQ2 pp lv r_mont uM (qpQ (pk0 pk))) j)).
          unfold rep in P2. rewrite P2. apply eqm_eq. ring.
      - pose proof (intt_canon (Qi pp j) (row (prows pt) j) K) as IC. split.
        + rewrite row_lvlQ2, (row_lvlQ1 pp lv intt (prows pt)) by assumption. apply r_add_ok; [apply K|assumption|apply canon_inr; assumption].
        + rewrite (pv_add lv false _ _ j HL Hj) by (try (rewrite (row_lvlQ1 pp lv intt (prows pt)) by assumption); first [assumption | apply canon_inr; assumption]).
          rewrite X2, pv_intt by assumption. rewrite (PV true eq_refl). apply eqm_eq. ring.
      - split.
        + rewrite row_lvlQ2 by assumption. apply r_add_ok; [apply K|assumption|assumption].
        + rewrite (pv_add lv false _ _ j HL Hj) by assumption. rewrite X2. rewrite (PV false eq_refl). apply eqm_eq. ring. }
    assert (KC' : forall x, In x (keys c') <-> x = id0 \/ x = id).
    { intros x. rewrite <- KC, <- !(mget_In_keys seq_dec), G. destruct (string_dec x id0) as [->|]; [rewrite (mget_comp _ _ I0); split; intros; discriminate|].
      destruct (string_dec x id) as [->|]; [rewrite (mget_comp _ _ I1); split; intros; discriminate|reflexivity]. }
    assert (L0 : length (enc0 lv uM (qpQ (pk0 pk)) se0 fl (pntt pt) (prows pt)) = S lv) by (unfold enc0; destruct fl, (negb (pntt pt)); apply lvlQ2_len).
    assert (L1 : length (enc1 lv uM (qpQ (pk1 pk)) se1 fl) = S lv) by (unfold enc1; destruct fl; apply lvlQ2_len).
    split; [|split; [exact KC'|]].
    - split; [assumption|]. split; [apply KC'; left; reflexivity|]. intros x p. rewrite G.
      destruct (string_dec x id0); [intros [= <-]; split; [exact L0|]; split; [reflexivity|]; intros j Hj; apply V0; assumption|].
      destruct (string_dec x id).
      + intros [= <-]. split; [exact L1|]. split; [reflexivity|]. intros j Hj. cbn [prows]. destruct (K1 j Hj), (H1 j Hj). apply (V1 _ _ (a j) e1); assumption.
      + intros M. exfalso. assert (In x (keys c)) by (apply (mget_In_keys seq_dec); congruence). apply KC in H. tauto.
    - intros j Hj. rewrite (phase_list pp sec c' j [id]).
      + cbn [Lsum]. unfold comp. rewrite !G. destruct (string_dec id0 id0); [|congruence]. destruct (string_dec id id0); [congruence|]. destruct (string_dec id id); [|congruence].
        destruct (V0 j Hj) as [_ X]. rewrite X. destruct (K1 j Hj) as [A B]. destruct (H1 j Hj) as [C D]. destruct (V1 _ _ _ _ j Hj A B C D) as [_ Y]. rewrite Y, HS.
        apply eqm_eq. ring.
      + assumption.
      + constructor; [intros []|constructor].
      + intros x. rewrite KC'. cbn. intuition congruence.
  Qed.
End ED.
