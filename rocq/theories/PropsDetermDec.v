(** C74 for decryption: what Decrypt of mkrlwe, mkckks and mkbfv returns does not depend on the iteration order of Go's maps, bit by bit;
    the two ciphertexts may be results of differently ordered evaluations. Specification: sameCt of PropsSum.v. *)
From Coq Require Import Znumtheory Setoid Morphisms.
From Verif Require Import Base IdSetModel IdSetSpec IdSetProofs KeySetModel NumTheory Negacyclic Ntt Word BasisExt BasisExtProofs Rows RlweModel KeyGenModel SchemeSpec ExtProd ExtProps Galois KeyGenProofs Instance CtModel CtSpec CtProofs EncDecProofs PropsEnc PropsCkksEx BfvModel PropsBfv PropsSum DecryptorModel PropsDecryptor PropsDeterm.
Open Scope Z_scope.

Section Dec.
  Context {N : nat} (pp : rparams) (WF : wfp N pp).
  Notation R := (R N). Notation ct := (ctT N). Notation L := (maxLevel pp).
  Add Ring R_ring74d : (@R_ring_theory N).

  (** component "0" after the loop: untouched if no party has a key in the list, else reduced *)
  Lemma decLoop_canon level fl (s : string -> R) I ids sks : (level < length (Qm pp))%nat -> keys_ok pp I s sks -> forall l (c : ct), wfct pp level fl c -> NoDup l -> incl l (keys sks) ->
    (forall x, x <> id0 -> In x (keys c) -> I x) ->
    (forall x, In x l -> is_has ids x = true <-> x <> id0 /\ In x (keys c)) ->
    forall c', decLoop pp ids sks l c = Ok c' ->
    (comp c' id0 = comp c id0 /\ forall x, In x l -> x <> id0 -> ~ In x (keys c)) \/
    ((exists x, In x l /\ x <> id0 /\ In x (keys c)) /\ forall j, (j <= level)%nat -> canon (Qi pp j) (row (prows (comp c' id0)) j)).
  Proof.
    intros HL [K0 KO]. induction l as [|id l IH]; intros c W ND IN HI H c' E.
    - cbn in E. injection E as <-. left. split; [reflexivity|]. intros x [].
    - unfold decLoop in E. cbn [rfold] in E. inversion ND as [|? ? NI ND']; subst.
      assert (Ik : In id (keys sks)) by (apply IN; left; reflexivity). apply (mget_In_keys seq_dec) in Ik.
      destruct (mget seq_dec sks id) as [sk|] eqn:Ek; [|congruence]. destruct (KO _ _ Ek) as [SI SM].
      destruct (is_has ids (sk_id sk)) eqn:Eh.
      + apply H in Eh; [|rewrite SI; left; reflexivity]. destruct Eh as [E1 E2].
        destruct (PartialDecrypt_ok pp WF level fl c sk s HL W E1 E2) as (c1 & P1 & P2 & P3 & P4 & P5 & P6); [rewrite SI in *; apply SM; apply HI; assumption|].
        rewrite P1 in E. cbn [rbind] in E. rewrite SI in *. right. split; [exists id; split; [left; reflexivity|split; assumption]|].
        destruct (IH c1 P2 ND') with (c' := c') as [[Q1 _]|[_ Q2]]; [..|exact E| |exact Q2].
        * intros x Hx. apply IN. right. assumption.
        * intros x X0 Hx. apply HI; [assumption|]. apply P3 in Hx. apply Hx.
        * intros x Hx. rewrite (H x (or_intror Hx)), P3. assert (x <> id) by congruence. tauto.
        * intros j Hj. rewrite Q1. apply P5. exact Hj.
      + cbn [rbind] in E. destruct (IH c W ND') with (c' := c') as [[Q1 Q3]|[Q1 Q2]]; [..|exact E| |].
        * intros x Hx. apply IN. right. assumption.
        * assumption.
        * intros x Hx. apply (H x (or_intror Hx)).
        * left. split; [exact Q1|]. intros x [<-|Hx] X0 J; [|exact (Q3 x Hx X0 J)]. rewrite SI in Eh.
          assert (is_has ids id = true) by (apply H; [left; reflexivity|split; assumption]). congruence.
        * right. split; [|exact Q2]. destruct Q1 as (x & A & B). exists x. split; [right; exact A|exact B].
  Qed.

  Lemma L_lt' : (L < length (Qm pp))%nat.
  Proof. pose proof (wf_Qpos _ _ WF). unfold maxLevel. lia. Qed.

  Lemma same_wf level fl (c d : ct) : mwf d -> sameCt c d -> wfct pp level fl c -> wfct pp level fl d.
  Proof. intros W S. apply (wfct_ext pp); [exact W|]. intros x. symmetry. apply S. Qed.
  Lemma same_parties (c d : ct) x : sameCt c d -> In x (parties c) <-> In x (parties d).
  Proof. intros S. rewrite !in_parties. destruct (S x) as [A _]. tauto. Qed.
  Lemma same_keys {V : Type} (a b : gomap string V) : (forall x, mget seq_dec a x = mget seq_dec b x) -> forall x, In x (keys a) <-> In x (keys b).
  Proof. intros S x. rewrite <- !(mget_In_keys seq_dec), S. reflexivity. Qed.
  Lemma same_keys_ok (I J : string -> Prop) s (a b : gomap string (secretKey N)) : mwf b -> (forall x, mget seq_dec a x = mget seq_dec b x) -> (forall x, J x -> I x) -> keys_ok pp I s a -> keys_ok pp J s b.
  Proof. intros W S IJ [_ K]. split; [exact W|]. intros id k E. rewrite <- S in E. destruct (K id k E) as [A B]. split; [exact A|]. intros X. apply B, IJ, X. Qed.

  Lemma same_phase s (c d : ct) j : mwf c -> mwf d -> sameCt c d -> phase pp s c j = phase pp s d j.
  Proof. intros A B S. apply (phase_ext pp); [exact A|exact B|]. intros x. apply S. Qed.

  (** bDecrypt: the value and the form of component "0" *)
  Lemma bdec (o : IdSetModel.order) (c : ct) s sks : order_ok o -> wfct pp L false c -> keys_ok pp (fun id => In id (parties c)) s sks ->
    exists p, bDecrypt pp o c sks = Ok p /\ wfpoly pp L false p /\
      ((p = comp c id0 /\ (forall x, In x (keys sks) -> ~ In x (parties c))) \/
       ((exists x, In x (keys sks) /\ In x (parties c)) /\
        forall j, (j <= L)%nat -> canon (Qi pp j) (row (prows p) j) /\ eqm (mq (Qi pp j)) (row (prows p) j) (phase pp (fun id => if in_dec string_dec id (keys sks) then s id else R0) c j))).
  Proof.
    intros O W KO. pose proof W as (W1 & W2 & W3).
    destruct (CopyNew_ok (o 0%nat) c (O 0%nat) W1 W2) as (c1 & C1 & C2 & C3).
    pose proof (wfct_ext pp L false c c1 C2 C3 W) as Wc1.
    destruct (IDSetOf_ok (o 1%nat) c1 (O 1%nat)) as (ids & D1 & D2 & D3).
    set (s' := fun id => if in_dec string_dec id (keys sks) then s id else R0).
    assert (KE : forall x, In x (keys c1) <-> In x (keys c)) by (intros x; rewrite <- !(mget_In_keys seq_dec), C3; reflexivity).
    assert (KO' : keys_ok pp (fun id => In id (parties c)) s' sks).
    { destruct KO as [A B]. split; [exact A|]. intros id k Hk. destruct (B id k Hk) as [B1 B2]. split; [exact B1|]. intros Hid. unfold s'.
      destruct (in_dec string_dec id (keys sks)) as [|n]; [apply B2; exact Hid|]. exfalso. apply n. apply (mget_In_keys seq_dec). congruence. }
    assert (H1 : NoDup (o 2%nat (keys sks))) by (apply (Permutation_NoDup (Permutation_sym (O 2%nat (keys sks)))), KO).
    assert (H2 : incl (o 2%nat (keys sks)) (keys sks)) by (intros x; apply (Permutation_in _ (O 2%nat (keys sks)))).
    assert (H3 : forall x, x <> id0 -> In x (keys c1) -> In x (parties c)) by (intros x X0 Hx; apply in_parties; split; [assumption|]; apply KE; exact Hx).
    assert (H4 : forall x, In x (o 2%nat (keys sks)) -> is_has ids x = true <-> x <> id0 /\ In x (keys c1)) by (intros x Hx; apply D3).
    assert (PI : forall x, In x (keys sks) -> In x (o 2%nat (keys sks))) by (intros x; apply (Permutation_in _ (Permutation_sym (O 2%nat (keys sks))))).
    destruct (decLoop_ok pp WF L false s' _ ids sks L_lt' KO' (o 2%nat (keys sks)) c1 Wc1 H1 H2 H3 H4) as (c2 & E1 & E2 & E3 & E4).
    exists (comp c2 id0). split; [|split; [apply (wfct_comp pp _ _ _ _ E2), E2|]].
    { unfold bDecrypt. rewrite C1. cbn [rbind]. rewrite D1. cbn [rbind]. rewrite E1. cbn [rbind]. apply cget_comp. apply E2. }
    destruct (decLoop_canon L false s' _ ids sks L_lt' KO' (o 2%nat (keys sks)) c1 Wc1 H1 H2 H3 H4 c2 E1) as [[G1 G2]|[G1 G2]]; [left|right].
    - split; [rewrite G1; unfold comp; rewrite C3; reflexivity|]. intros x Hx Hp. apply in_parties in Hp as [X0 Hp]. apply (G2 x (PI x Hx) X0). apply KE. exact Hp.
    - split; [destruct G1 as (x & A & B & C); exists x; split; [apply H2; exact A|apply in_parties; split; [exact B|apply KE; exact C]]|].
      intros j Hj. split; [apply G2; exact Hj|]. specialize (E4 j Hj). rewrite (phase_ext pp s' c1 c j C2 W1 C3) in E4.
      assert (Z2 : phase pp s' c2 j = row (prows (comp c2 id0)) j).
      { unfold CtSpec.phase.
        assert (PV : pvalue pp (comp c2 id0) j = row (prows (comp c2 id0)) j) by (unfold pvalue; destruct (wfct_comp pp _ _ _ _ E2 (proj1 (proj2 E2))) as (_ & F & _); rewrite F; reflexivity).
        rewrite PV. rewrite Lsum_zero; [ring|].
        intros x Hx. apply in_parties in Hx as [Nx Hx]. apply E3 in Hx as [_ Hx]. unfold s'.
        destruct (in_dec string_dec x (keys sks)) as [J|J]; [|ring]. exfalso. apply Nx, Hx, PI, J. }
      rewrite Z2 in E4. exact E4.
  Qed.
End Dec.

(** mkrlwe Decrypt: two runs on the same ciphertext and the same keys (as maps) both panic or return the same plaintext *)
Theorem C74_decrypt : forall N pp level fl (o o' : IdSetModel.order) (c d : ctT N) s sks sks' (pt : poly N), wfp N pp -> (level < length (Qm pp))%nat -> order_ok o -> order_ok o' ->
  wfct pp level fl c -> mwf d -> sameCt c d -> keys_ok pp (fun id => In id (parties c)) s sks -> mwf sks' -> (forall id, mget seq_dec sks id = mget seq_dec sks' id) ->
  Decrypt pp o c sks pt = Decrypt pp o' d sks' pt.
Proof.
  intros N pp level fl o o' c d s sks sks' pt WF HL O1 O2 W MD S K1 MK SK.
  pose proof (same_wf pp level fl c d MD S W) as WD.
  assert (K2 : keys_ok pp (fun id => In id (parties d)) s sks') by (apply (same_keys_ok pp (fun id => In id (parties c)) _ s sks); trivial; intros x; apply (same_parties c d x S)).
  assert (SAME : incl (parties c) (keys sks) <-> incl (parties d) (keys sks')).
  { pose proof (same_keys sks sks' SK) as KK. split; intros I x Hx; apply KK, I, (same_parties c d x S), Hx. }
  destruct (Decrypt_ok pp WF level fl o c s sks pt HL O1 W K1) as [D1 D1'].
  destruct (Decrypt_ok pp WF level fl o' d s sks' pt HL O2 WD K2) as [D2 D2'].
  destruct (incl_dec' (parties c) (keys sks)) as [I|I].
  - destruct (D1 I) as (p & A1 & A2 & A3 & A4). destruct D2 as (p' & B1 & B2 & B3 & B4); [apply SAME; exact I|].
    rewrite A1, B1. f_equal. destruct p as [r f], p' as [r' f']. cbn [prows pntt] in *. f_equal; [|congruence].
    apply (nth_ext _ _ R0 R0); [congruence|]. intros j Hj. rewrite A2 in Hj. destruct (A4 j ltac:(lia)) as [C1 C2], (B4 j ltac:(lia)) as [C3 C4].
    rewrite <- (same_phase pp s c d j (proj1 W) MD S) in C4.
    assert (OK : okmod (N := N) (Qi pp j)) by (apply (okQ pp WF); lia). apply (canon_eqm (Qi pp j)); [apply OK|assumption|assumption|].
    rewrite <- C4 in C2. unfold pvalue in C2. cbn [pntt prows] in C2. destruct fl; [|exact C2].
    apply (ntt_eqm _ (proj1 OK)) in C2. assert (X : forall y, eqm (mq (Qi pp j)) (ntt (Qi pp j) (intt (Qi pp j) y)) y) by (intros y; apply ntt_intt; apply OK).
    unfold row in *. rewrite <- (X (nth j r R0)), <- (X (nth j r' R0)). rewrite C2. reflexivity.
  - rewrite (D1' I), D2'; [reflexivity|]. intros J. apply I. apply SAME. exact J.
Qed.
Print Assumptions C74_decrypt.

(** mkckks Decrypt, on objects with the same buffer (the buffer afterwards and the polynomial that is decoded) *)
Theorem C74_ckks_decrypt : forall N pp l fl (o o' : IdSetModel.order) pool (c d : ctT N) s sks sks', wfp N pp -> (l < length (Qm pp))%nat -> order_ok o -> order_ok o' ->
  wfct pp l fl c -> mwf d -> sameCt c d -> keys_ok pp (fun id => In id (parties c)) s sks -> mwf sks' -> (forall id, mget seq_dec sks id = mget seq_dec sks' id) ->
  ckDecrypt pp o pool c sks = ckDecrypt pp o' pool d sks'.
Proof.
  intros N pp l fl o o' pool c d s sks sks' WF HL O O' W MD S KO MK SK.
  pose proof (same_wf pp l fl c d MD S W) as WD.
  destruct (CopyNew_ok (o 3%nat) c (O 3%nat) (proj1 W) (proj1 (proj2 W))) as (c1 & C1 & C2 & C3).
  destruct (CopyNew_ok (o' 3%nat) d (O' 3%nat) MD (proj1 (proj2 WD))) as (d1 & D1 & D2 & D3).
  pose proof (wfct_ext pp l fl c c1 C2 C3 W) as Wc1. pose proof (wfct_ext pp l fl d d1 D2 D3 WD) as Wd1.
  unfold ckDecrypt. rewrite C1, D1, (wfct_level pp l fl c1 Wc1), (wfct_level pp l fl d1 Wd1).
  assert (G : forall x, mget seq_dec c1 x = mget seq_dec d1 x) by (intros x; rewrite C3, D3; apply S).
  rewrite (C74_decrypt N pp l fl o o' c1 d1 s sks sks' (truncPool pool l)); trivial; [intros x; split; [apply (same_keys c1 d1 G)|apply G]|].
  apply (same_keys_ok pp (fun id => In id (parties c)) _ s sks); trivial; [apply KO|].
  intros x Hx. apply in_parties in Hx as [X0 Hx]. apply in_parties. split; [exact X0|]. apply (same_keys c1 c C3). exact Hx.
Qed.
Print Assumptions C74_ckks_decrypt.

(** mkbfv Decrypt: the polynomial that is decoded, for any key set (also one without the keys of some parties) *)
Theorem C74_bfv_decrypt : forall N pp (o o' : IdSetModel.order) (c d : ctT N) s sks sks', wfp N pp -> order_ok o -> order_ok o' ->
  wfct pp (maxLevel pp) false c -> mwf d -> sameCt c d -> keys_ok pp (fun id => In id (parties c)) s sks -> mwf sks' -> (forall id, mget seq_dec sks id = mget seq_dec sks' id) ->
  exists p, bDecrypt pp o c sks = Ok p /\ bDecrypt pp o' d sks' = Ok p.
Proof.
  intros N pp o o' c d s sks sks' WF O O' W MD S KO MK SK.
  pose proof (same_wf pp _ false c d MD S W) as WD.
  assert (KO' : keys_ok pp (fun id => In id (parties d)) s sks') by (apply (same_keys_ok pp (fun id => In id (parties c)) _ s sks); trivial; intros x; apply (same_parties c d x S)).
  pose proof (same_keys sks sks' SK) as KK.
  destruct (bdec pp WF o c s sks O W KO) as (p & P1 & P2 & P3). destruct (bdec pp WF o' d s sks' O' WD KO') as (q & Q1 & Q2 & Q3).
  exists p. split; [exact P1|]. rewrite Q1. f_equal.
  destruct P3 as [[P3 P4]|[(x & P3 & P5) P4]], Q3 as [[Q3 Q4]|[(y & Q3 & Q5) Q4]].
  - rewrite P3, Q3. unfold comp. rewrite (proj2 (S id0)). reflexivity.
  - exfalso. apply (P4 y); [apply KK; exact Q3|apply (same_parties c d y S); exact Q5].
  - exfalso. apply (Q4 x); [apply KK; exact P3|apply (same_parties c d x S); exact P5].
  - destruct p as [r f], q as [r' f']. destruct P2 as (A1 & A2 & _), Q2 as (B1 & B2 & _). cbn [prows pntt] in *. f_equal; [|congruence].
    apply (nth_ext _ _ R0 R0); [congruence|]. intros j Hj. rewrite B1 in Hj. destruct (P4 j ltac:(lia)) as [C1 C2], (Q4 j ltac:(lia)) as [C3 C4].
    assert (OK : okmod (N := N) (Qi pp j)) by (apply (okQ pp WF); pose proof (L_lt' pp WF); lia). apply (canon_eqm (Qi pp j)); [apply OK|exact C3|exact C1|].
    unfold row in *. rewrite C2, C4. apply eqm_eq.
    etransitivity; [apply (phase_ext pp _ d c j MD (proj1 W)); intros z; symmetry; apply S|].
    unfold phase. f_equal. apply Lsum_ext. intros z Hz. f_equal.
    destruct (in_dec string_dec z (keys sks)) as [X|X], (in_dec string_dec z (keys sks')) as [Y|Y]; trivial; exfalso; [apply Y, KK, X|apply X, KK, Y].
Qed.
Print Assumptions C74_bfv_decrypt.

(** a ciphertext of alice and bob enumerated in two ways, key maps enumerated in two ways, two iteration orders: all four runs return *)
Definition exy_c : ctT 8 := ex_ct 3 ["alice"; "bob"]%string.
Definition exy_k : gomap string (secretKey 8) := map (fun id => (id, ex_sk id)) ["bob"; "alice"]%string.
Lemma exy_rev {V} (a b c : string) (x y z : V) : NoDup [a; b; c] -> forall i, mget seq_dec [(a, x); (b, y); (c, z)] i = mget seq_dec [(c, z); (b, y); (a, x)] i.
Proof.
  intros ND i. inversion ND as [|? ? N1 ND']; subst. inversion ND' as [|? ? N2 _]; subst. cbn in *. destruct (seq_dec i a), (seq_dec i b), (seq_dec i c); subst; trivial; exfalso; tauto.
Qed.
Theorem C74_decrypt_nonvacuous : rev exy_c <> exy_c /\ rev exy_k <> exy_k /\ sameCt exy_c (rev exy_c) /\
  (exists p, Decrypt ex_pp ex_ord exy_c exy_k (newPool ex_pp) = Ok p /\ Decrypt ex_pp ex_ord2 (rev exy_c) (rev exy_k) (newPool ex_pp) = Ok p) /\
  (exists q p, ckDecrypt ex_pp ex_ord (newPool ex_pp) exy_c exy_k = (q, Ok p) /\ ckDecrypt ex_pp ex_ord2 (newPool ex_pp) (rev exy_c) (rev exy_k) = (q, Ok p)) /\
  (exists p, bDecrypt ex_pp ex_ord exy_c exy_k = Ok p /\ bDecrypt ex_pp ex_ord2 (rev exy_c) (rev exy_k) = Ok p).
Proof.
  assert (ND : NoDup [id0; "alice"; "bob"]%string) by exact ex_nd2.
  assert (W : wfct ex_pp 2 false exy_c) by (apply (PropsCkksEx.ex_ct_wf 3); [lia|exact ex_nd2]).
  assert (NR : NoDup (keys (rev exy_c))) by (change (NoDup ["bob"; "alice"; id0]%string); repeat constructor; cbn; intuition discriminate).
  assert (S : sameCt exy_c (rev exy_c)).
  { assert (G : forall x, mget seq_dec exy_c x = mget seq_dec (rev exy_c) x) by (intros x; apply (exy_rev id0 "alice" "bob" _ _ _ ND)).
    intros x. split; [apply (same_keys _ _ G)|apply G]. }
  destruct (PropsBfv.ex_keys ["bob"; "alice"]%string) as [KO KE]; [repeat constructor; cbn; intuition discriminate|]. fold exy_k in KO, KE.
  assert (KO' : keys_ok ex_pp (fun id => In id (parties exy_c)) (fun _ => ex_s) exy_k) by (destruct KO as [A B]; split; [exact A|intros id k Hk; destruct (B id k Hk) as [B1 B2]; split; [exact B1|intros _; apply B2; exact I]]).
  assert (MK : mwf (rev exy_k)) by (change (NoDup ["alice"; "bob"]%string); repeat constructor; cbn; intuition discriminate).
  assert (SK : forall id, mget seq_dec exy_k id = mget seq_dec (rev exy_k) id) by (intros i; cbn; destruct (seq_dec i "bob"), (seq_dec i "alice"); subst; trivial; discriminate).
  assert (Q3 : length (Qm ex_pp) = 3%nat) by reflexivity.
  split; [discriminate|]. split; [discriminate|]. split; [exact S|]. split; [|split].
  - assert (E : exists p, Decrypt ex_pp ex_ord exy_c exy_k (newPool ex_pp) = Ok p).
    { destruct (Decrypt_ok ex_pp ex_wf 2 false ex_ord exy_c (fun _ => ex_s) exy_k (newPool ex_pp) ltac:(rewrite Q3; lia) ex_ord_ok W KO') as [D _]. destruct D as (p & D & _); [|exists p; exact D].
      change (parties exy_c) with ["alice"; "bob"]%string. rewrite KE. intros x Hx. cbn in *. tauto. }
    destruct E as (p & E). exists p. split; [exact E|]. rewrite <- E. symmetry. apply (C74_decrypt 8 ex_pp 2 false ex_ord ex_ord2 exy_c _ (fun _ => ex_s)); trivial; [exact ex_wf|rewrite Q3; lia|exact ex_ord_ok|exact ex_ord2_ok].
  - destruct (dec_ok ex_pp ex_wf ex_ord (newPool ex_pp) exy_c (fun _ => ex_s) exy_k 2 false) as (p & E & _); trivial; [rewrite Q3; lia|exact ex_ord_ok| |cbn; lia|].
    { change (parties exy_c) with ["alice"; "bob"]%string. rewrite KE. intros x Hx. cbn in *. tauto. }
    exists (fst (ckDecrypt ex_pp ex_ord (newPool ex_pp) exy_c exy_k)), p. rewrite <- E. split; [apply surjective_pairing|].
    etransitivity; [|apply surjective_pairing]. symmetry. apply (C74_ckks_decrypt 8 ex_pp 2 false ex_ord ex_ord2 (newPool ex_pp) exy_c _ (fun _ => ex_s)); trivial; [exact ex_wf|rewrite Q3; lia|exact ex_ord_ok|exact ex_ord2_ok].
  - apply (C74_bfv_decrypt 8 ex_pp ex_ord ex_ord2 exy_c _ (fun _ => ex_s)); trivial; [exact ex_wf|exact ex_ord_ok|exact ex_ord2_ok].
Qed.
Print Assumptions C74_decrypt_nonvacuous.
