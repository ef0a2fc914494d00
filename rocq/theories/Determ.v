(** Lemmas for C74: loops over a map give the same result in any order. *)
From Coq Require Import Znumtheory Setoid Morphisms Permutation.
From Verif Require Import Base IdSetModel KeySetModel NumTheory Negacyclic Ntt Word BasisExt BasisExtProofs Rows RlweModel KeyGenModel SchemeSpec ExtProd ExtProps Galois KeyGenProofs CtModel CtSpec CtProofs EncDecProofs KeySwitchModel Digits KsLoops RotProofs ConjProofs.
Open Scope Z_scope.

(** ** Loops whose iterations commute *)
Section Perm.
  Context {A B : Type} (E : B -> B -> Prop) (Er : forall b, E b b) (Et : forall a b c, E a b -> E b c -> E a c) (Inv : B -> Prop) (f : B -> A -> res B).
  (** r' returns if r does, with an equivalent value *)
  Definition dir (r r' : res B) : Prop := forall a, r = Ok a -> exists b, r' = Ok b /\ E a b.
  Lemma rfold_resp l : (forall x b c b', In x l -> E b c -> f b x = Ok b' -> exists c', f c x = Ok c' /\ E b' c') -> forall b c, E b c -> dir (rfold f l b) (rfold f l c).
  Proof using.
    clear. induction l as [|x l IH]; intros R b c Q b' H; cbn [rfold] in *; [exists c; split; [reflexivity|congruence]|].
    destruct (f b x) as [b1|] eqn:F; [|discriminate]. cbn [rbind] in H. destruct (R x b c b1 (or_introl eq_refl) Q F) as (c1 & F' & Q1). rewrite F'. cbn [rbind].
    apply (IH ltac:(intros y; intros; apply (R y) with (b := b0); [right; assumption|assumption|assumption]) b1 c1 Q1 b' H).
  Qed.
  Lemma rfold_perm l l' : Permutation l l' -> NoDup l ->
    (forall x b c b', In x l -> E b c -> f b x = Ok b' -> exists c', f c x = Ok c' /\ E b' c') ->
    (forall x b b', In x l -> Inv b -> f b x = Ok b' -> Inv b') ->
    (forall x y b b1 b2, In x l -> In y l -> x <> y -> Inv b -> f b x = Ok b1 -> f b1 y = Ok b2 -> exists c1 c2, f b y = Ok c1 /\ f c1 x = Ok c2 /\ E b2 c2) ->
    forall b c, Inv b -> E b c -> dir (rfold f l b) (rfold f l' c).
  Proof using Er Et.
    clear - Er Et. intros P. induction P as [|x l l' P IH|x y l|l l1 l2 P1 IH1 P2 IH2]; intros ND R I C b c IB Q b' H.
    - cbn [rfold] in *. exists c. split; [reflexivity|congruence].
    - cbn [rfold] in *. destruct (f b x) as [b1|] eqn:F; [|discriminate]. cbn [rbind] in H. destruct (R x b c b1 (or_introl eq_refl) Q F) as (c1 & F' & Q1). rewrite F'. cbn [rbind].
      apply NoDup_cons_iff in ND as [_ ND].
      apply (IH ND) with (b := b1); [intros; eapply R; eauto; right; assumption|intros; eapply I; eauto; right; assumption|intros z w; intros; apply (C z w b0 b2 b3); trivial; right; assumption| |exact Q1|exact H].
      apply (I x b b1 (or_introl eq_refl) IB F).
    - cbn [rfold] in *. destruct (f b y) as [b1|] eqn:F1; [|discriminate]. cbn [rbind] in H. destruct (f b1 x) as [b2|] eqn:F2; [|discriminate]. cbn [rbind] in H.
      assert (NE : y <> x) by (apply NoDup_cons_iff in ND as [N _]; intros ->; apply N; left; reflexivity).
      destruct (C y x b b1 b2 (or_introl eq_refl) (or_intror (or_introl eq_refl)) NE IB F1 F2) as (c1 & c2 & G1 & G2 & Q2).
      destruct (R x b c c1 (or_intror (or_introl eq_refl)) Q G1) as (d1 & K1 & Q3). rewrite K1. cbn [rbind].
      destruct (R y c1 d1 c2 (or_introl eq_refl) Q3 G2) as (d2 & K2 & Q4). rewrite K2. cbn [rbind].
      apply (rfold_resp l ltac:(intros; eapply R; eauto; right; right; assumption) b2 d2 (Et _ _ _ Q2 Q4) b' H).
    - assert (ND1 : NoDup l1) by (apply (Permutation_NoDup P1 ND)). assert (S : forall x, In x l1 -> In x l) by (intros x; apply Permutation_in; apply Permutation_sym; exact P1).
      destruct (IH1 ND R I C b b IB (Er b) b' H) as (c1 & K1 & Q1).
      destruct (IH2 ND1 ltac:(intros; eapply R; eauto) ltac:(intros; eapply I; eauto) ltac:(intros z w; intros; apply (C z w b0 b1 b2); auto) b c IB Q c1 K1) as (d1 & K2 & Q2).
      exists d1. split; [exact K2|apply (Et _ _ _ Q1 Q2)].
  Qed.
End Perm.

Section Det.
  Context {N : nat} (pp : rparams) (WF : wfp N pp).
  Notation R := (R N). Notation ct := (ctT N).
  Notation order := IdSetModel.order.
  Add Ring R_ring74 : (@R_ring_theory N).

  (** equal as maps *)
  Definition eqc (u v : ct) : Prop := forall x, mget seq_dec u x = mget seq_dec v x.
  Lemma eqc_refl u : eqc u u. Proof. intros x. reflexivity. Qed.
  Lemma eqc_trans u v w : eqc u v -> eqc v w -> eqc u w. Proof. intros A B x. rewrite (A x). apply B. Qed.
  Lemma eqc_sym u v : eqc u v -> eqc v u. Proof. intros A x. symmetry. apply A. Qed.
  Lemma eqc_keys u v x : eqc u v -> In x (keys u) <-> In x (keys v).
  Proof. intros A. rewrite <- !(mget_In_keys seq_dec). rewrite (A x). reflexivity. Qed.
  Lemma eqc_parties u v x : eqc u v -> In x (parties u) <-> In x (parties v).
  Proof. intros A. rewrite !in_parties, (eqc_keys u v x A). reflexivity. Qed.
  Lemma eqc_cget u v x : eqc u v -> cget u x = cget v x.
  Proof. intros A. unfold cget. rewrite (A x). reflexivity. Qed.
  Lemma eqc_cgetL u v x l : eqc u v -> cgetL u x l = cgetL v x l.
  Proof. intros A. unfold cgetL. rewrite (eqc_cget u v x A). reflexivity. Qed.
  Lemma eqc_level u v : eqc u v -> ctLevel u = ctLevel v.
  Proof. intros A. unfold ctLevel. rewrite (eqc_cget u v id0 A). reflexivity. Qed.
  Lemma eqc_cset u v x p : eqc u v -> eqc (cset u x p) (cset v x p).
  Proof. intros A y. unfold cset. rewrite !mget_mset. destruct (seq_dec y x); [reflexivity|apply A]. Qed.
  Lemma keys_perm (u v : ct) (o o' : list string -> list string) : ord1_ok o -> ord1_ok o' -> mwf u -> mwf v -> eqc u v -> Permutation (o (keys u)) (o' (keys v)) /\ NoDup (o (keys u)).
  Proof.
    intros O O' MU MV A. split; [|apply (Permutation_NoDup (Permutation_sym (O _))); exact MU].
    eapply Permutation_trans; [apply O|]. eapply Permutation_trans; [|apply Permutation_sym; apply O']. apply NoDup_Permutation; [exact MU|exact MV|]. intros x. apply eqc_keys. exact A.
  Qed.
  Lemma ids_perm (o o' p p' : list string -> list string) (u v : ct) ids : ord1_ok o -> ord1_ok o' -> ord1_ok p -> ord1_ok p' -> eqc u v -> IDSetOf o u = Ok ids ->
    exists ids', IDSetOf o' v = Ok ids' /\ Permutation (p (keys ids)) (p' (keys ids')) /\ NoDup (p (keys ids)) /\ (forall x, In x (p (keys ids)) <-> In x (parties u)) /\ (forall x, is_has ids x = is_has ids' x) /\ mwf ids /\ mwf ids'.
  Proof.
    intros O O' P P' A H. destruct (IDSetOf_ok o u O) as (i1 & H1 & M1 & S1). destruct (IDSetOf_ok o' v O') as (i2 & H2 & M2 & S2). assert (i1 = ids) by congruence. subst i1.
    assert (S : forall x, is_has ids x = is_has i2 x).
    { intros x. destruct (is_has ids x) eqn:X; symmetry.
      - apply S2. apply S1 in X. rewrite <- (eqc_keys u v x A). exact X.
      - destruct (is_has i2 x) eqn:Y; [|reflexivity]. apply S2 in Y. rewrite <- (eqc_keys u v x A) in Y. apply S1 in Y. congruence. }
    exists i2. split; [exact H2|]. split; [|split; [apply (Permutation_NoDup (Permutation_sym (P _))); exact M1|split; [|split; [exact S|split; [exact M1|exact M2]]]]].
    - eapply Permutation_trans; [apply P|]. eapply Permutation_trans; [|apply Permutation_sym; apply P']. apply NoDup_Permutation; [exact M1|exact M2|]. intros x. specialize (S x). unfold is_has in S.
      rewrite <- !(mhas_In seq_dec). rewrite S. reflexivity.
    - intros x. rewrite in_parties, <- S1. unfold is_has. rewrite (mhas_In seq_dec). split; apply Permutation_in; [apply P|apply Permutation_sym; apply P].
  Qed.

  (** ** iterations that rewrite the component of their identity *)
  Definition own (G : string -> poly N -> res (poly N)) (c : ct) (id : string) : res ct := q <- cget c id ;; p <- G id q ;; Ok (cset c id p).
  Lemma own_inv G c id c' : own G c id = Ok c' -> exists q p, mget seq_dec c id = Some q /\ G id q = Ok p /\ c' = cset c id p.
  Proof. unfold own, cget. destruct (mget seq_dec c id) as [q|]; cbn [rbind]; [|discriminate]. destruct (G id q) as [p|] eqn:EG; cbn [rbind]; [|discriminate]. intros H. exists q, p. split; [reflexivity|]. split; [exact EG|congruence]. Qed.
  Lemma own_fwd G c id q p : mget seq_dec c id = Some q -> G id q = Ok p -> own G c id = Ok (cset c id p).
  Proof. intros A B. unfold own, cget. rewrite A. cbn [rbind]. rewrite B. reflexivity. Qed.
  Lemma own_dir G l l' b c : Permutation l l' -> NoDup l -> eqc b c -> dir eqc (rfold (own G) l b) (rfold (own G) l' c).
  Proof.
    intros P ND Q. apply (rfold_perm eqc eqc_refl eqc_trans (fun _ => True)); trivial.
    - intros x u v u' _ A H. apply own_inv in H as (q & p & H1 & H2 & ->). rewrite (A x) in H1. exists (cset v x p). split; [apply (own_fwd G v x q p H1 H2)|apply eqc_cset; exact A].
    - intros x y u u1 u2 _ _ NE _ H1 H2. apply own_inv in H1 as (q & p & A1 & A2 & ->). apply own_inv in H2 as (q' & p' & B1 & B2 & ->).
      unfold cset in B1. rewrite mget_mset_neq in B1 by congruence. exists (cset u y p'), (cset (cset u y p') x p). split; [apply (own_fwd G u y q' p' B1 B2)|]. split.
      + apply (own_fwd G _ x q p); [|exact A2]. unfold cset. rewrite mget_mset_neq by exact NE. exact A1.
      + intros z. unfold cset. rewrite !mget_mset. destruct (seq_dec z y), (seq_dec z x); congruence.
  Qed.
  (** what such a loop leaves alone, and what it keeps *)
  Lemma own_mwf G l : forall b b', rfold (own G) l b = Ok b' -> mwf b -> mwf b'.
  Proof.
    induction l as [|x l IH]; intros b b' H M; cbn [rfold] in H; [congruence|]. destruct (own G b x) as [b1|] eqn:F; [|discriminate]. cbn [rbind] in H. apply (IH b1 b' H).
    apply own_inv in F as (q & p & _ & _ & ->). apply mwf_mset. exact M.
  Qed.
  Lemma own_keep G l (P : poly N -> Prop) z : (forall q p, In z l -> P q -> G z q = Ok p -> P p) -> forall b b', rfold (own G) l b = Ok b' -> (forall q, mget seq_dec b z = Some q -> P q) -> forall q, mget seq_dec b' z = Some q -> P q.
  Proof.
    induction l as [|x l IH]; intros K b b' H M; cbn [rfold] in H; [assert (b' = b) by congruence; subst; exact M|]. destruct (own G b x) as [b1|] eqn:F; [|discriminate]. cbn [rbind] in H.
    apply (IH ltac:(intros q p I; apply K; right; exact I) b1 b' H). apply own_inv in F as (q & p & A & B & ->). intros r. unfold cset. rewrite mget_mset. destruct (seq_dec z x) as [->|]; [|apply M].
    intros Y. assert (p = r) by congruence. subst r. apply (K q p (or_introl eq_refl) (M q A) B).
  Qed.

  (** ** iterations that also add to component "0" *)
  Definition acc level (G : string -> poly N -> res (list R * poly N)) (c : ct) (id : string) : res ct :=
    q <- cget c id ;; '(e, p) <- G id q ;; q0 <- cget c id0 ;; Ok (cset (cset c id0 (Pol (lvlQ2 pp level r_add (prows q0) e) (pntt q0))) id p).
  Lemma acc_inv level G c id c' : acc level G c id = Ok c' -> exists q e p q0, mget seq_dec c id = Some q /\ G id q = Ok (e, p) /\ mget seq_dec c id0 = Some q0 /\ c' = cset (cset c id0 (Pol (lvlQ2 pp level r_add (prows q0) e) (pntt q0))) id p.
  Proof.
    unfold acc, cget. destruct (mget seq_dec c id) as [q|]; cbn [rbind]; [|discriminate]. destruct (G id q) as [[e p]|] eqn:EG; cbn [rbind]; [|discriminate]. destruct (mget seq_dec c id0) as [q0|]; cbn [rbind]; [|discriminate].
    intros H. exists q, e, p, q0. split; [reflexivity|]. split; [exact EG|]. split; [reflexivity|congruence].
  Qed.
  Lemma acc_fwd level G c id q e p q0 : mget seq_dec c id = Some q -> G id q = Ok (e, p) -> mget seq_dec c id0 = Some q0 -> acc level G c id = Ok (cset (cset c id0 (Pol (lvlQ2 pp level r_add (prows q0) e) (pntt q0))) id p).
  Proof. intros A B C. unfold acc, cget. rewrite A. cbn [rbind]. rewrite B. cbn [rbind]. rewrite C. reflexivity. Qed.
  (** rows of a level, coefficients at most their moduli *)
  Definition rowsok level (p : poly N) : Prop := length (prows p) = S level /\ forall j, (j <= level)%nat -> inr (Qi pp j) (row (prows p) j).
  Definition zok level (c : ct) : Prop := forall q, mget seq_dec c id0 = Some q -> rowsok level q.
  Definition canons level (e : list R) : Prop := forall j, (j <= level)%nat -> canon (Qi pp j) (row e j).

  Lemma radd_comm m (a e e' : R) : okq (mq m) -> inr m a -> canon m e -> canon m e' -> r_add m (r_add m a e) e' = r_add m (r_add m a e') e.
  Proof.
    intros K A E E'. pose proof (canon_inr _ _ E) as J. pose proof (canon_inr _ _ E') as J'. destruct (r_add_ok m a e K A J) as [A1 A2]. destruct (r_add_ok m a e' K A J') as [B1 B2].
    apply (canon_eqm m); [exact K|apply r_add_canon; assumption|apply r_add_canon; assumption|].
    eapply eqm_trans; [apply (r_add_ok m _ e' K A1 J')|]. eapply eqm_trans; [apply eqm_add; [exact A2|apply eqm_refl]|]. apply eqm_sym.
    eapply eqm_trans; [apply (r_add_ok m _ e K B1 J)|]. eapply eqm_trans; [apply eqm_add; [exact B2|apply eqm_refl]|]. apply eqm_eq. ring.
  Qed.
  Lemma rows_comm level q e e' : (level < length (Qm pp))%nat -> rowsok level q -> canons level e -> canons level e' ->
    lvlQ2 pp level r_add (lvlQ2 pp level r_add (prows q) e) e' = lvlQ2 pp level r_add (lvlQ2 pp level r_add (prows q) e') e.
  Proof.
    intros HL [_ Q] E E'. unfold lvlQ2. apply tab_ext. intros j Hj. rewrite !row_tab by lia. apply radd_comm; [apply (okQ pp WF j); lia|apply Q; lia|apply E; lia|apply E'; lia].
  Qed.
  Lemma rows_add level q e fl : (level < length (Qm pp))%nat -> rowsok level q -> canons level e -> rowsok level (Pol (lvlQ2 pp level r_add (prows q) e) fl).
  Proof.
    intros HL [_ Q] E. split; [apply tab_length|]. intros j Hj. cbn [prows]. rewrite row_lvlQ2 by exact Hj. apply canon_inr. apply r_add_canon; [apply (okQ pp WF j); lia|apply Q; exact Hj|apply E; exact Hj].
  Qed.
  Lemma acc_dir level G l l' b c : (level < length (Qm pp))%nat -> ~ In id0 l -> (forall id q e p, In id l -> G id q = Ok (e, p) -> canons level e) ->
    Permutation l l' -> NoDup l -> zok level b -> eqc b c -> dir eqc (rfold (acc level G) l b) (rfold (acc level G) l' c).
  Proof.
    intros HL N0 GC P ND Z Q. apply (rfold_perm eqc eqc_refl eqc_trans (zok level)); trivial.
    - intros x u v u' _ A H. apply acc_inv in H as (q & e & p & q0 & H1 & H2 & H3 & ->). rewrite (A x) in H1. rewrite (A id0) in H3. eexists. split; [apply (acc_fwd level G v x q e p q0 H1 H2 H3)|]. apply eqc_cset, eqc_cset. exact A.
    - intros x u u' I V H. apply acc_inv in H as (q & e & p & q0 & H1 & H2 & H3 & ->). intros r. unfold cset. rewrite mget_mset_neq by (intros EE; subst; contradiction). rewrite mget_mset_eq. intros Y.
      assert (Y' : r = Pol (lvlQ2 pp level r_add (prows q0) e) (pntt q0)) by congruence. subst r. apply rows_add; [exact HL|apply V; exact H3|apply (GC x q e p I H2)].
    - intros x y u u1 u2 Ix Iy NE V H1 H2. apply acc_inv in H1 as (q & e & p & q0 & A1 & A2 & A3 & ->). apply acc_inv in H2 as (q' & e' & p' & q0' & B1 & B2 & B3 & ->).
      assert (X0 : x <> id0) by (intros EE; subst; contradiction). assert (Y0 : y <> id0) by (intros EE; subst; contradiction).
      unfold cset in B1, B3. rewrite mget_mset_neq, mget_mset_neq in B1 by congruence. rewrite mget_mset_neq, mget_mset_eq in B3 by congruence.
      assert (Q0 : q0' = Pol (lvlQ2 pp level r_add (prows q0) e) (pntt q0)) by congruence. subst q0'.
      eexists _, _. split; [apply (acc_fwd level G u y q' e' p' q0 B1 B2 A3)|]. split.
      + apply (acc_fwd level G _ x q e p (Pol (lvlQ2 pp level r_add (prows q0) e') (pntt q0))); [unfold cset; rewrite !mget_mset_neq by congruence; exact A1|exact A2|unfold cset; rewrite mget_mset_neq, mget_mset_eq by congruence; reflexivity].
      + cbn [prows pntt]. rewrite (rows_comm level q0 e e' HL (V q0 A3) (GC x q e p Ix A2) (GC y q' e' p' Iy B2)).
        intros z. unfold cset. rewrite !mget_mset. destruct (seq_dec z y), (seq_dec z x), (seq_dec z id0); congruence.
  Qed.
  Lemma acc_keep level G l : (level < length (Qm pp))%nat -> ~ In id0 l -> (forall id q e p, In id l -> G id q = Ok (e, p) -> canons level e) ->
    forall b b', rfold (acc level G) l b = Ok b' -> mwf b -> zok level b -> mwf b' /\ zok level b' /\ forall x, In x (keys b') <-> In x (keys b).
  Proof.
    intros HL. induction l as [|x l IH]; intros N0 GC b b' H M Z; cbn [rfold] in H; [assert (b' = b) by congruence; subst; split; [exact M|split; [exact Z|tauto]]|].
    destruct (acc level G b x) as [b1|] eqn:F; [|discriminate]. cbn [rbind] in H. apply acc_inv in F as (q & e & p & q0 & H1 & H2 & H3 & EB).
    assert (K : forall z, In z (keys b1) <-> In z (keys b)).
    { intros z. subst b1. rewrite keys_cset, keys_cset. split; [intros [->|[->|I]]|tauto]; [apply (mget_In_keys seq_dec); congruence|apply (mget_In_keys seq_dec); congruence|exact I]. }
    assert (Z1 : zok level b1).
    { subst b1. intros r. unfold cset. rewrite mget_mset_neq by (intros E; apply N0; left; exact (eq_sym E)). rewrite mget_mset_eq. intros Y.
      assert (Y' : r = Pol (lvlQ2 pp level r_add (prows q0) e) (pntt q0)) by congruence. subst r. apply rows_add; [exact HL|apply Z; exact H3|apply (GC x q e p (or_introl eq_refl) H2)]. }
    assert (M1 : mwf b1) by (subst b1; apply mwf_mset, mwf_mset; exact M).
    destruct (IH ltac:(intros I; apply N0; right; exact I) ltac:(intros id q1 e1 p1 I; apply GC; right; exact I) b1 b' H M1 Z1) as (A1 & A2 & A3). split; [exact A1|]. split; [exact A2|]. intros z. rewrite A3. apply K.
  Qed.
  Lemma own_keys G l : forall b b', rfold (own G) l b = Ok b' -> forall x, In x (keys b') <-> In x (keys b).
  Proof.
    induction l as [|y l IH]; intros b b' H x; cbn [rfold] in H; [assert (b' = b) by congruence; subst; tauto|]. destruct (own G b y) as [b1|] eqn:F; [|discriminate]. cbn [rbind] in H.
    rewrite (IH b1 b' H x). apply own_inv in F as (q & p & A & _ & ->). rewrite keys_cset. split; [intros [->|I]; [apply (mget_In_keys seq_dec); congruence|exact I]|tauto].
  Qed.

  (** ** a successful division by P gives coefficients below their moduli, whatever it divides *)
  Lemma rescaleP_canon level (c : polyQP N) out : (level < length (Qm pp))%nat -> rescaleP pp level c = Ok out -> canons level out /\ length out = S level.
  Proof.
    intros HL H. set (c2 := lvl1 pp level ntt (lvl1 pp level intt c)).
    assert (EQ : lvl1 pp level intt c2 = lvl1 pp level intt c).
    { unfold c2, lvl1, lvlQ1. cbn [qpQ qpP]. f_equal; apply tab_ext; intros j Hj; rewrite !row_tab by lia.
      - pose proof (okmod_md pp WF level (MQ j) HL ltac:(cbn; lia)) as K. apply (canon_eqm (Qi pp j)); [apply K|apply intt_canon; exact K|apply intt_canon; exact K|apply intt_ntt; apply K].
      - pose proof (okmod_md pp WF level (MP j) HL ltac:(cbn; lia)) as K. apply (canon_eqm (Pi pp j)); [apply K|apply intt_canon; exact K|apply intt_canon; exact K|apply intt_ntt; apply K]. }
    destruct (rescaleP_ok pp WF level c2 (fun i => intt (md pp i) (fqp c2 i)) HL) as (out' & Rm & A & B & C & _).
    - intros i V. pose proof (okmod_md pp WF level i HL V) as K. split; [unfold c2; rewrite fqp_lvl1 by exact V; apply ntt_canon; exact K|apply eqm_refl].
    - unfold rescaleP in A, H. rewrite EQ in A. cbv zeta in A, H. assert (out' = out) by congruence. subst out'. split; [exact C|exact B].
  Qed.
  Lemma ExtH_canon level (d key : swk N) out : (level < length (Qm pp))%nat -> ExternalProductHoisted pp level d key = Ok out -> canons level out /\ length out = S level.
  Proof.
    intros HL H. unfold ExternalProductHoisted in H. destruct (rmapM _ _) as [ds|]; cbn [rbind] in H; [|discriminate]. destruct (mac_digits _ _ _ _) as [m|]; cbn [rbind] in H; [|discriminate]. apply (rescaleP_canon level m); assumption.
  Qed.
  Lemma Ext_canon level (p : poly N) key out : (level < length (Qm pp))%nat -> ExternalProduct pp level p key = Ok out -> canons level out /\ length out = S level.
  Proof.
    intros HL H. unfold ExternalProduct in H. destruct (Decompose _ _ _) as [ds|]; cbn [rbind] in H; [|discriminate]. destruct (mac_digits _ _ _ _) as [m|]; cbn [rbind] in H; [|discriminate]. apply (rescaleP_canon level m); assumption.
  Qed.
  Lemma ExtOp_canon level h (c : ct) id key out : (level < length (Qm pp))%nat -> ExtOp pp level h c id key = Ok out -> canons level out /\ length out = S level.
  Proof.
    intros HL H. unfold ExtOp in H. destruct h as [m|].
    - destruct (hget m id) as [d|]; cbn [rbind] in H; [|discriminate]. apply (ExtH_canon level d key); assumption.
    - destruct (cgetL c id level) as [p|]; cbn [rbind] in H; [|discriminate]. apply (Ext_canon level p key); assumption.
  Qed.
  Lemma eqc_ExtOp u v level h id key : eqc u v -> ExtOp pp level h u id key = ExtOp pp level h v id key.
  Proof. intros A. unfold ExtOp. destruct h; [reflexivity|]. rewrite (eqc_cgetL u v id level A). reflexivity. Qed.
End Det.
