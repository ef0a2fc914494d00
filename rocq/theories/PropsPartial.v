(** C75: distributed decryption, one PartialDecrypt call per party.
    Vocabulary: [phase pp s ct j] (CtSpec.v) is c_0 + sum of c_id * s id modulo Q_j; [sameCt] (PropsSum.v): the same identities with the same polynomials. *)
From Coq Require Import Znumtheory Setoid Morphisms.
From Verif Require Import Base IdSetModel IdSetSpec IdSetProofs KeySetModel NumTheory Negacyclic Ntt Word BasisExt BasisExtProofs Rows RlweModel KeyGenModel SchemeSpec ExtProd ExtProps Galois KeyGenProofs Instance CtModel CtSpec CtProofs EncDecProofs PropsEnc PropsCkksEx BfvModel PropsBfv PropsSum DecryptorModel PropsDecryptor PropsDeterm PropsDetermDec.
Open Scope Z_scope.

(** the parties apply their keys one after the other *)
Definition partialAll {N} (pp : rparams) (c : ctT N) (l : list (secretKey N)) : res (ctT N) := rfold (PartialDecrypt pp) l c.
Definition key_ids {N} (l : list (secretKey N)) : list string := map (fun k => sk_id k) l.
(** keys of distinct parties of c, key of party id for the secret s id *)
Definition contributors {N} (pp : rparams) (s : string -> R N) (c : ctT N) (l : list (secretKey N)) : Prop :=
  NoDup (key_ids l) /\ forall k, In k l -> In (sk_id k) (parties c) /\ mval pp (maxLevel pp) (sk_val k) (fun _ => s (sk_id k)).

Section P.
  Context {N : nat} (pp : rparams) (WF : wfp N pp).
  Notation R := (R N). Notation ct := (ctT N).
  Add Ring R_ring75 : (@R_ring_theory N).

  Lemma pdec_ok level fl (s : string -> R) : (level < length (Qm pp))%nat -> forall l (c : ct), wfct pp level fl c -> contributors pp s c l ->
    exists c', partialAll pp c l = Ok c' /\ wfct pp level fl c' /\ (forall x, In x (keys c') <-> In x (keys c) /\ ~ In x (key_ids l)) /\
      (forall j, (j <= level)%nat -> eqm (mq (Qi pp j)) (phase pp s c' j) (phase pp s c j)) /\
      (l <> nil -> forall j, (j <= level)%nat -> canon (Qi pp j) (row (prows (comp c' id0)) j)) /\
      (forall x, x <> id0 -> ~ In x (key_ids l) -> mget seq_dec c' x = mget seq_dec c x).
  Proof.
    intros HL. induction l as [|k l IH]; intros c W [ND K].
    - exists c. split; [reflexivity|]. split; [exact W|]. split; [cbn; tauto|]. split; [reflexivity|]. split; [congruence|reflexivity].
    - destruct (K k (or_introl eq_refl)) as [I M]. apply in_parties in I as [Z I]. inversion ND as [|? ? NI ND']; subst.
      destruct (PartialDecrypt_ok pp WF level fl c k s HL W Z I M) as (c1 & P1 & P2 & P3 & P4 & P5 & P6).
      destruct (IH c1 P2) as (c' & Q1 & Q2 & Q3 & Q4 & Q5 & Q6).
      { split; [exact ND'|]. intros k' Hk. destruct (K k' (or_intror Hk)) as [A B]. split; [|exact B]. apply in_parties in A as [A1 A2]. apply in_parties. split; [exact A1|]. apply P3. split; [|exact A2].
        intros E. apply NI. rewrite <- E. apply (in_map (fun k => sk_id k)). exact Hk. }
      exists c'. unfold partialAll in *. cbn [rfold]. rewrite P1. cbn [rbind]. split; [exact Q1|]. split; [exact Q2|]. split; [|split; [|split]].
      + intros x. rewrite Q3, P3. cbn [key_ids map In]. intuition congruence.
      + intros j Hj. rewrite Q4, P4 by assumption. reflexivity.
      + intros _ j Hj. destruct l as [|k' l]; [|apply Q5; [congruence|exact Hj]]. cbn in Q1. injection Q1 as <-. apply P5. exact Hj.
      + intros x X0 NX. cbn [key_ids map In] in NX. rewrite Q6, P6; tauto || (intros E; apply NX; left; congruence) || reflexivity.
  Qed.

  (** a reduced component "0" is fixed by the decryption and the other components *)
  Lemma same_ct level fl s (a b : ct) : (level < length (Qm pp))%nat -> wfct pp level fl a -> wfct pp level fl b ->
    (forall x, x <> id0 -> mget seq_dec a x = mget seq_dec b x) ->
    (forall j, (j <= level)%nat -> canon (Qi pp j) (row (prows (comp a id0)) j) /\ canon (Qi pp j) (row (prows (comp b id0)) j) /\ eqm (mq (Qi pp j)) (phase pp s a j) (phase pp s b j)) ->
    forall x, mget seq_dec a x = mget seq_dec b x.
  Proof.
    intros HL A2 B2 OTH H.
    assert (KE : forall x, x <> id0 -> In x (keys a) <-> In x (keys b)) by (intros x Hx; rewrite <- !(mget_In_keys seq_dec), OTH by exact Hx; reflexivity).
    intros x. destruct (string_dec x id0) as [->|n]; [|apply OTH; exact n].
    rewrite (mget_comp a) by apply A2. rewrite (mget_comp b) by apply B2. f_equal.
    pose proof (wfct_comp pp _ _ _ _ A2 (proj1 (proj2 A2))) as (P1 & P2 & P3). pose proof (wfct_comp pp _ _ _ _ B2 (proj1 (proj2 B2))) as (Q1 & Q2 & Q3).
    assert (V : forall j, (j <= level)%nat -> eqm (mq (Qi pp j)) (pvalue pp (comp a id0) j) (pvalue pp (comp b id0) j)).
    { intros j Hj. destruct (H j Hj) as (_ & _ & X).
      rewrite (phase_list pp s a j (parties b)) in X; [|apply A2|apply parties_nodup; apply B2|intros y; rewrite in_parties; split; intros [Y0 Y]; (split; [exact Y0|apply (KE y Y0); exact Y])].
      unfold phase in X. rewrite (Lsum_ext (parties b) _ (fun id => mul (pvalue pp (comp b id) j) (s id))) in X.
      2:{ intros y Hy. apply in_parties in Hy. unfold comp. rewrite OTH by tauto. reflexivity. }
      set (T := Lsum (parties b) _) in X. assert (Y : eqm (mq (Qi pp j)) (sub (add (pvalue pp (comp a id0) j) T) T) (sub (add (pvalue pp (comp b id0) j) T) T)) by (apply eqm_sub; [exact X|reflexivity]).
      assert (CA : forall y, sub (add y T) T = y) by (intros y; apply R_ext; intros i _; rewrite co_sub, co_add; lia). rewrite !CA in Y. exact Y. }
    destruct (comp a id0) as [r f], (comp b id0) as [r' f']. cbn [prows pntt] in *. subst f f'. f_equal.
    apply (nth_ext _ _ R0 R0); [congruence|]. intros j Hj. rewrite P1 in Hj.
    assert (OK : okmod (N := N) (Qi pp j)) by (apply (okQ pp WF); lia). destruct (H j ltac:(lia)) as (CA & CB & _). apply (canon_eqm (Qi pp j)); [apply OK|exact CA|exact CB|].
    pose proof (V j ltac:(lia)) as C2. unfold pvalue in C2. cbn [pntt prows] in C2. destruct fl; [|exact C2].
    apply (ntt_eqm _ (proj1 OK)) in C2. assert (X : forall y, eqm (mq (Qi pp j)) (ntt (Qi pp j) (intt (Qi pp j) y)) y) by (intros y; apply ntt_intt; apply OK).
    unfold row in *. rewrite <- (X (nth j r R0)), <- (X (nth j r' R0)). rewrite C2. reflexivity.
  Qed.
End P.

(** any contributions succeed; the parties that have not contributed are left, with their polynomials, and the decryption is unchanged *)
Theorem C75_value : forall N pp level fl (c : ctT N) s l, wfp N pp -> (level < length (Qm pp))%nat -> wfct pp level fl c -> contributors pp s c l ->
  exists c', partialAll pp c l = Ok c' /\ wfct pp level fl c' /\ (forall x, In x (parties c') <-> In x (parties c) /\ ~ In x (key_ids l)) /\
    (forall x, In x (parties c') -> mget seq_dec c' x = mget seq_dec c x) /\
    forall j, (j <= level)%nat -> eqm (mq (Qi pp j)) (phase pp s c' j) (phase pp s c j).
Proof.
  intros N pp level fl c s l WF HL W K. destruct (pdec_ok pp WF level fl s HL l c W K) as (c' & A & B & C & D & _ & E). exists c'. split; [exact A|]. split; [exact B|]. split; [|split; [|exact D]].
  - intros x. rewrite !in_parties, C. tauto.
  - intros x Hx. apply in_parties in Hx as [X0 Hx]. apply C in Hx. apply E; tauto.
Qed.
Print Assumptions C75_value.

(** the order of the contributions does not matter, nor how the map of components is enumerated: bit by bit the same ciphertext *)
Theorem C75_any_order : forall N pp level fl (c d : ctT N) s l l', wfp N pp -> (level < length (Qm pp))%nat -> wfct pp level fl c -> mwf d -> sameCt c d ->
  contributors pp s c l -> contributors pp s d l' -> (forall x, In x (key_ids l) <-> In x (key_ids l')) ->
  exists a b, partialAll pp c l = Ok a /\ partialAll pp d l' = Ok b /\ sameCt a b.
Proof.
  intros N pp level fl c d s l l' WF HL W MD S K K' E. pose proof (same_wf pp level fl c d MD S W) as WD.
  destruct (pdec_ok pp WF level fl s HL l c W K) as (a & A1 & A2 & A3 & A4 & A5 & A6).
  destruct (pdec_ok pp WF level fl s HL l' d WD K') as (b & B1 & B2 & B3 & B4 & B5 & B6).
  exists a, b. split; [exact A1|]. split; [exact B1|].
  assert (KE : forall x, In x (keys a) <-> In x (keys b)) by (intros x; rewrite A3, B3, E; destruct (S x) as [S1 _]; tauto).
  intros x. split; [apply KE|]. revert x. destruct l as [|k l].
  - destruct l' as [|k' l']; [|exfalso; destruct (proj2 (E (sk_id k')) (or_introl eq_refl))].
    cbn in A1, B1. injection A1 as <-. injection B1 as <-. intros x. apply S.
  - assert (NE : l' <> nil) by (intros ->; destruct (proj1 (E (sk_id k)) (or_introl eq_refl))).
    apply (same_ct pp WF level fl s a b HL A2 B2).
    + intros x X0. destruct (in_dec string_dec x (key_ids (k :: l))) as [I|I].
      * assert (Ha : ~ In x (keys a)) by (rewrite A3; tauto). assert (Hb : ~ In x (keys b)) by (rewrite <- KE; exact Ha). apply (mget_None seq_dec) in Ha, Hb. congruence.
      * rewrite A6, B6; [apply S|exact X0|rewrite <- E; exact I|exact X0|exact I].
    + intros j Hj. split; [apply A5; [congruence|exact Hj]|]. split; [apply B5; [exact NE|exact Hj]|]. rewrite A4, B4 by exact Hj. rewrite (same_phase pp s c d j); [reflexivity|apply W|exact MD|exact S].
Qed.
Print Assumptions C75_any_order.

(** after the contributions of all parties component "0" is what Decrypt with all keys returns; for mkbfv what is decoded *)
Theorem C75_complete : forall N pp level fl (c : ctT N) s l (o : IdSetModel.order) sks (pt : poly N), wfp N pp -> (level < length (Qm pp))%nat -> order_ok o -> wfct pp level fl c -> parties c <> nil ->
  contributors pp s c l -> incl (parties c) (key_ids l) -> keys_ok pp (fun id => In id (parties c)) s sks -> incl (parties c) (keys sks) -> (level <= plevel pt)%nat ->
  exists a p, partialAll pp c l = Ok a /\ keys a = [id0] /\ Decrypt pp o c sks pt = Ok p /\ prows p = prows (comp a id0) /\
    (level = maxLevel pp -> fl = false -> bDecrypt pp o c sks = Ok (comp a id0)).
Proof.
  intros N pp level fl c s l o sks pt WF HL O W NE K IL KO IK LP. 
  destruct (pdec_ok pp WF level fl s HL l c W K) as (a & A1 & A2 & A3 & A4 & A5 & A6).
  assert (L0 : l <> nil) by (intros ->; apply NE; destruct (parties c) as [|x ?]; [reflexivity|destruct (IL x (or_introl eq_refl))]).
  assert (P0 : parties a = nil).
  { destruct (parties a) as [|x q] eqn:EP; [reflexivity|exfalso]. assert (I : In x (parties a)) by (rewrite EP; left; reflexivity). apply in_parties in I as [X0 I]. apply A3 in I as [I NI]. apply NI, IL, in_parties. split; assumption. }
  assert (PH : forall t j, phase pp t a j = pvalue pp (comp a id0) j) by (intros t j; unfold phase; rewrite P0; cbn [Lsum]; apply add_0_r).
  destruct (wfct_comp pp _ _ _ _ A2 (proj1 (proj2 A2))) as (C1 & C2 & C3).
  destruct (Decrypt_ok pp WF level fl o c s sks pt HL O W KO) as [D _]. destruct (D IK) as (p & D1 & D2 & D3 & D4). replace (Nat.min level (plevel pt)) with level in * by lia.
  exists a, p. split; [exact A1|]. split; [|split; [exact D1|]; split].
  - assert (Z : forall x, In x (keys a) <-> x = id0).
    { intros x. split; [|intros ->; apply A2]. intros I. destruct (string_dec x id0) as [|n]; [assumption|exfalso]. assert (J : In x (parties a)) by (apply in_parties; split; assumption). rewrite P0 in J. destruct J. }
    assert (X : Permutation (keys a) [id0]) by (apply NoDup_Permutation; [apply A2|repeat constructor; cbn; tauto|intros x; rewrite Z; cbn; intuition congruence]).
    apply Permutation_sym, Permutation_length_1_inv in X. exact X.
  - apply (nth_ext _ _ R0 R0); [congruence|]. intros j Hj. rewrite D2 in Hj. destruct (D4 j ltac:(lia)) as [E1 E2]. pose proof (A4 j ltac:(lia)) as E3. rewrite PH in E3.
    assert (OK : okmod (N := N) (Qi pp j)) by (apply (okQ pp WF); lia). apply (canon_eqm (Qi pp j)); [apply OK|exact E1|apply (A5 L0); lia|]. rewrite <- E3 in E2.
    unfold pvalue in E2. rewrite C2 in E2. cbn [pntt prows] in E2. destruct fl; [|exact E2].
    apply (ntt_eqm _ (proj1 OK)) in E2. assert (X : forall y, eqm (mq (Qi pp j)) (ntt (Qi pp j) (intt (Qi pp j) y)) y) by (intros y; apply ntt_intt; apply OK).
    unfold row in *. rewrite <- (X (nth j (prows p) R0)), <- (X (nth j (prows (comp a id0)) R0)). rewrite E2. reflexivity.
  - intros -> ->. destruct (bdec pp WF o c s sks O W KO) as (q & Q1 & (Q2 & Q3 & _) & [[_ Q4]|[_ Q4]]); rewrite Q1; f_equal.
    + exfalso. destruct (parties c) as [|x ?]; [apply NE; reflexivity|]. apply (Q4 x); [apply IK|]; left; reflexivity.
    + assert (Y : prows q = prows (comp a id0)).
      { apply (nth_ext _ _ R0 R0); [congruence|]. intros j Hj. rewrite Q2 in Hj. destruct (Q4 j ltac:(lia)) as [E1 E2]. pose proof (A4 j ltac:(lia)) as E3. rewrite PH in E3.
        assert (OK : okmod (N := N) (Qi pp j)) by (apply (okQ pp WF); lia). apply (canon_eqm (Qi pp j)); [apply OK|exact E1|apply (A5 L0); lia|]. unfold pvalue in E3. rewrite C2 in E3. unfold row in *. rewrite E2, E3.
        apply eqm_eq. unfold phase. f_equal. apply Lsum_ext. intros z Hz. f_equal. destruct (in_dec string_dec z (keys sks)) as [|n]; [reflexivity|exfalso; apply n, IK, Hz]. }
      destruct q as [r f], (comp a id0) as [r' f']. cbn [prows pntt] in *. congruence.
Qed.
Print Assumptions C75_complete.

(** the key of a party that is not in the ciphertext, in particular a second contribution of the same party: the call panics *)
Lemma partial_missing {N} pp (c : ctT N) (k : secretKey N) : ~ In (sk_id k) (keys c) -> PartialDecrypt pp c k = Panic.
Proof.
  intros H. apply (mget_None seq_dec) in H. unfold PartialDecrypt. destruct (ctLevel c) as [level|]; cbn [rbind]; [|reflexivity]. unfold cget at 1. rewrite H. reflexivity.
Qed.
Lemma partial_keys {N} pp (c c' : ctT N) (k : secretKey N) : PartialDecrypt pp c k = Ok c' -> forall x, In x (keys c') -> x <> sk_id k /\ (In x (keys c) \/ x = id0).
Proof.
  intros H x. unfold PartialDecrypt in H.
  destruct (ctLevel c) as [level|] eqn:E1; cbn [rbind] in H; [|discriminate].
  destruct (cget c (sk_id k)) as [p|] eqn:E2; cbn [rbind] in H; [|discriminate].
  assert (G : forall (d : ctT N) id q y, In y (keys (cset d id q)) <-> y = id \/ In y (keys d)).
  { intros d id q y. unfold cset. rewrite <- !(mget_In_keys seq_dec), mget_mset. destruct (seq_dec y id); [subst; intuition congruence|intuition congruence]. }
  repeat match type of H with
  | (x <- ?e ;; _) = _ => destruct e eqn:?; cbn [rbind] in H; [|discriminate]
  end.
  injection H as <-. rewrite keys_mdel. intros [A B]. split; [exact A|].
  repeat match type of B with
  | context [if ?b then _ else _] => destruct b
  | In _ (keys (cset _ _ _)) => apply G in B; destruct B as [B|B]
  end; tauto.
Qed.
Theorem C75_twice : forall N pp (c : ctT N) l1 l2 (k k' : secretKey N), In k l1 -> sk_id k' = sk_id k -> sk_id k <> id0 -> partialAll pp c (l1 ++ k' :: l2) = Panic.
Proof.
  intros N pp c l1 l2 k k' I E Z. unfold partialAll. rewrite rfold_app. destruct (rfold (PartialDecrypt pp) l1 c) as [a|] eqn:EA; cbn [rbind rfold]; [|reflexivity].
  assert (H : ~ In (sk_id k) (keys a)).
  { revert c I EA. induction l1 as [|y l1 IH]; intros c I EA; [destruct I|]. cbn [rfold] in EA. destruct (PartialDecrypt pp c y) as [c1|] eqn:E1; cbn [rbind] in EA; [|discriminate].
    assert (MON : forall l (u v : ctT N) x, x <> id0 -> ~ In x (keys u) -> rfold (PartialDecrypt pp) l u = Ok v -> ~ In x (keys v)).
    { induction l as [|z l IHl]; intros u v x X NX EV; [cbn in EV; injection EV as <-; exact NX|]. cbn [rfold] in EV. destruct (PartialDecrypt pp u z) as [u1|] eqn:EU; cbn [rbind] in EV; [|discriminate].
      apply (IHl u1 v x X); [|exact EV]. intros J. destruct (partial_keys pp u u1 z EU x J) as [_ [Q|Q]]; [exact (NX Q)|exact (X Q)]. }
    destruct I as [->|I]; [|apply (IH c1); assumption]. apply (MON l1 c1 a); [exact Z| |exact EA]. intros J. apply (partial_keys pp c c1 k E1) in J. tauto. }
  rewrite partial_missing; [reflexivity|]. rewrite E. exact H.
Qed.
Print Assumptions C75_twice.
Theorem C75_stranger : forall N pp (c : ctT N) l1 l2 (k : secretKey N), ~ In (sk_id k) (keys c) -> sk_id k <> id0 -> partialAll pp c (l1 ++ k :: l2) = Panic.
Proof.
  intros N pp c l1 l2 k H Z. unfold partialAll. rewrite rfold_app. destruct (rfold (PartialDecrypt pp) l1 c) as [a|] eqn:EA; cbn [rbind rfold]; [|reflexivity].
  rewrite partial_missing; [reflexivity|]. revert c H EA. induction l1 as [|y l1 IH]; intros c H EA; [cbn in EA; injection EA as <-; exact H|].
  cbn [rfold] in EA. destruct (PartialDecrypt pp c y) as [c1|] eqn:E1; cbn [rbind] in EA; [|discriminate]. apply (IH c1); [|exact EA].
  intros J. destruct (partial_keys pp c c1 y E1 _ J) as [_ [Q|Q]]; [exact (H Q)|exact (Z Q)].
Qed.
Print Assumptions C75_stranger.

(** alice and bob contribute to the ciphertext of PropsDetermDec.v, in both orders and over two enumerations of its map *)
Theorem C75_nonvacuous : exists ka kb : secretKey 8, sk_id ka = "alice"%string /\ sk_id kb = "bob"%string /\ parties exy_c = ["alice"; "bob"]%string /\ wfct ex_pp 2 false exy_c /\
  contributors ex_pp (fun _ => ex_s) exy_c [ka; kb] /\ contributors ex_pp (fun _ => ex_s) (rev exy_c) [kb; ka] /\
  (exists a b p, partialAll ex_pp exy_c [ka; kb] = Ok a /\ partialAll ex_pp (rev exy_c) [kb; ka] = Ok b /\ sameCt a b /\ keys a = [id0] /\ Decrypt ex_pp ex_ord exy_c exy_k (newPool ex_pp) = Ok p /\ prows p = prows (comp a id0)) /\
  (exists a, partialAll ex_pp exy_c [kb] = Ok a /\ (forall x, In x (parties a) <-> x = "alice"%string)) /\ partialAll ex_pp exy_c [ka; kb; ka] = Panic.
Proof.
  exists (ex_sk "alice"), (ex_sk "bob"). split; [reflexivity|]. split; [reflexivity|]. split; [reflexivity|].
  assert (W : wfct ex_pp 2 false exy_c) by (apply (PropsCkksEx.ex_ct_wf 3); [lia|exact ex_nd2]). split; [exact W|].
  assert (HL : (2 < length (Qm ex_pp))%nat) by (cbn; lia).
  assert (K1 : contributors ex_pp (fun _ => ex_s) exy_c [ex_sk "alice"; ex_sk "bob"]%string).
  { split; [cbn; repeat constructor; cbn; intuition discriminate|]. intros k [<-|[<-|[]]]; (split; [change (parties exy_c) with ["alice"; "bob"]%string; cbn; tauto|apply ex_sk_val]). }
  assert (K2 : contributors ex_pp (fun _ => ex_s) (rev exy_c) [ex_sk "bob"; ex_sk "alice"]%string).
  { split; [cbn; repeat constructor; cbn; intuition discriminate|]. intros k [<-|[<-|[]]]; (split; [change (parties (rev exy_c)) with ["bob"; "alice"]%string; cbn; tauto|apply ex_sk_val]). }
  assert (K3 : contributors ex_pp (fun _ => ex_s) exy_c [ex_sk "bob"]%string).
  { split; [cbn; repeat constructor; cbn; intuition discriminate|]. intros k [<-|[]]; (split; [change (parties exy_c) with ["alice"; "bob"]%string; cbn; tauto|apply ex_sk_val]). }
  split; [exact K1|]. split; [exact K2|]. destruct C74_decrypt_nonvacuous as (_ & _ & S & _).
  split; [|split; [|exact (C75_twice 8 ex_pp exy_c [ex_sk "alice"; ex_sk "bob"]%string nil (ex_sk "alice") (ex_sk "alice") (or_introl eq_refl) eq_refl ltac:(discriminate))]].
  - assert (NR : mwf (rev exy_c)) by (change (NoDup ["bob"; "alice"; id0]%string); repeat constructor; cbn; intuition discriminate).
    destruct (C75_any_order 8 ex_pp 2 false exy_c (rev exy_c) (fun _ => ex_s) [ex_sk "alice"; ex_sk "bob"]%string [ex_sk "bob"; ex_sk "alice"]%string ex_wf HL W NR S K1 K2) as (a & b & A & B & C).
    { intros x. cbn. tauto. }
    destruct (PropsBfv.ex_keys ["bob"; "alice"]%string) as [KO KE]; [repeat constructor; cbn; intuition discriminate|]. fold exy_k in KO, KE.
    assert (KO' : keys_ok ex_pp (fun id => In id (parties exy_c)) (fun _ => ex_s) exy_k) by (destruct KO as [X Y]; split; [exact X|intros id k Hk; destruct (Y id k Hk) as [B1 B2]; split; [exact B1|intros _; apply B2; exact I]]).
    destruct (C75_complete 8 ex_pp 2 false exy_c (fun _ => ex_s) [ex_sk "alice"; ex_sk "bob"]%string ex_ord exy_k (newPool ex_pp) ex_wf HL ex_ord_ok W) as (a' & p & A' & D & E & F & _); trivial.
    + discriminate.
    + intros x Hx. exact Hx.
    + change (parties exy_c) with ["alice"; "bob"]%string. rewrite KE. intros x Hx. cbn in *. tauto.
    + rewrite A in A'. injection A' as <-. exists a, b, p. repeat (split; [assumption|]). exact F.
  - destruct (C75_value 8 ex_pp 2 false exy_c (fun _ => ex_s) [ex_sk "bob"]%string ex_wf HL W K3) as (a & A & _ & B & _). exists a. split; [exact A|]. intros x. rewrite B.
    change (parties exy_c) with ["alice"; "bob"]%string. cbn. intuition (subst; congruence || tauto).
Qed.
Print Assumptions C75_nonvacuous.
