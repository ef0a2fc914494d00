(** The CKKS evaluator: DropLevel, Rescale and MulPtxtNew. *)
From Flocq Require Import Core BinarySingleNaN.
From Coq Require Import Znumtheory Setoid Morphisms Reals Lra.
From Verif Require Import Base IdSetModel IdSetSpec IdSetProofs KeySetModel NumTheory Negacyclic Ntt Word BasisExt BasisExtProofs Rows RlweModel KeyGenModel SchemeSpec ExtProd ExtProps Galois KeyGenProofs CtModel CtSpec CtProofs EncDecProofs PropsEnc KeySwitchModel Digits KsLoops RotProofs FloatModel CkksFloat CkksModel FloatProofs CkksFloatProofs CkksProofs.
Open Scope Z_scope.

(** the moduli a rescaling by n steps at [level] removes *)
Definition dropped (pp : rparams) (n level : nat) : list Z := map (fun i => mq (Qi pp (level - i))) (seq 0 n).
(** the scale after i divisions *)
Fixpoint rscale (pp : rparams) (level : nat) (s : f64) (i : nat) : f64 :=
  match i with O => s | S i => f_div (rscale pp level s i) (f_of_int (mq (Qi pp (level - i)))) end.

Section Rs.
  Context {N : nat} (pp : rparams) (WF : wfp N pp).
  Notation R := (R N). Notation ct := (ctT N).
  Notation phase := (@phase N pp). Notation pvalue := (@pvalue N pp). Notation wfct := (@wfct N pp). Notation wfpoly := (@wfpoly N pp).
  Add Ring R_ring23 : (@R_ring_theory N).
  Notation order := IdSetModel.order.

  (** a ciphertext known component by component *)
  Lemma wfct_intro level (c : ct) : mwf c -> In id0 (keys c) -> (forall x, In x (keys c) -> wfpoly level false (comp c x)) -> wfct level false c.
  Proof.
    intros A B C. split; [assumption|]. split; [assumption|]. intros x p Hp. assert (I : In x (keys c)) by (apply (mget_In_keys seq_dec); congruence).
    rewrite (mget_comp c x I) in Hp. injection Hp as <-. apply C. assumption.
  Qed.
  Lemma phase_eq s (c d : ct) j : mwf c -> mwf d -> (forall x, In x (keys c) <-> In x (keys d)) -> (forall x, x = id0 \/ In x (keys c) -> pvalue (comp c x) j = pvalue (comp d x) j) -> phase s c j = phase s d j.
  Proof.
    intros W1 W2 K H. rewrite (phase_list pp s d j (parties c)); trivial.
    - unfold CtSpec.phase. rewrite H by (left; reflexivity). f_equal. apply Lsum_ext. intros x Hx. rewrite H; [reflexivity|]. right. apply in_parties in Hx. tauto.
    - apply parties_nodup. assumption.
    - intros x. rewrite in_parties, K. reflexivity.
  Qed.

  (** *** DropLevel *)
  Lemma DropLevel_ok o (c : ckct N) l k : ord1_ok o -> (k <= l)%nat -> wfct l false (cv c) ->
    exists v, DropLevel pp o c k = Ok (CK v (csc c)) /\ wfct (l - k) false v /\ (forall x, In x (keys v) <-> In x (keys (cv c))) /\
      (forall x, In x (keys (cv c)) -> comp v x = Pol (firstn (S (l - k)) (prows (comp (cv c) x))) false) /\
      forall s j, (j <= l - k)%nat -> phase s v j = phase s (cv c) j.
  Proof.
    intros O H W. unfold DropLevel. rewrite (wfct_level pp _ _ _ W). cbn [rbind]. destruct (Nat.ltb_spec (S l) k); [lia|].
    destruct (loop1 (fun c id => p <- cget c id ;; p <- cutRows pp (S l - k) p ;; Ok (cset c id p)) (fun x p => Pol (firstn (S (l - k)) (prows p)) false) (o (keys (cv c))) (cv c)) as (v & V1 & V2 & V3 & V4).
    - apply (Permutation_NoDup (Permutation_sym (O _))). apply W.
    - apply W.
    - intros x Hx. apply (Permutation_in _ (O _)). assumption.
    - intros d id Hid Wd K E. apply (Permutation_in _ (O _)) in Hid. rewrite cget_comp by (apply K; assumption). cbn [rbind]. rewrite E.
      destruct (wfct_comp pp _ _ _ _ W Hid) as (L & F & _). unfold cutRows. destruct (Nat.ltb_spec (length (prows (comp (cv c) id))) (S l - k)); [lia|]. cbn [rbind].
      rewrite F. replace (S l - k)%nat with (S (l - k)) by lia. reflexivity.
    - rewrite V1. cbn [rbind]. exists v. split; [reflexivity|].
      assert (C : forall x, In x (keys (cv c)) -> comp v x = Pol (firstn (S (l - k)) (prows (comp (cv c) x))) false).
      { intros x Hx. rewrite V4. destruct (in_dec string_dec x (o (keys (cv c)))) as [|n]; [reflexivity|]. exfalso. apply n. apply (Permutation_in _ (Permutation_sym (O _))). assumption. }
      assert (RW : forall x j, In x (keys (cv c)) -> (j <= l - k)%nat -> row (prows (comp v x)) j = row (prows (comp (cv c) x)) j).
      { intros x j Hx Hj. rewrite (C x Hx). cbn [prows]. unfold row. apply nth_firstn. lia. }
      assert (WV : wfct (l - k) false v).
      { apply wfct_intro; [exact V2|apply V3, W|]. intros x Hx. apply V3 in Hx. destruct (wfct_comp pp _ _ _ _ W Hx) as (L & F & I).
        split; [rewrite (C x Hx); cbn [prows]; rewrite firstn_length; lia|]. split; [rewrite (C x Hx); reflexivity|]. intros j Hj. rewrite RW by assumption. apply I. lia. }
      split; [exact WV|]. split; [exact V3|]. split; [exact C|]. intros s j Hj. apply phase_eq; [exact V2|apply W|exact V3|].
      intros x Hx. assert (Ix : In x (keys (cv c))) by (destruct Hx as [->|Hx]; [apply W|apply V3; assumption]).
      rewrite (pval_row pp (l - k) v), (pval_row pp l (cv c)) by assumption. apply RW; assumption.
  Qed.
  Lemma DropLevel_too_many o (c : ckct N) l k : (S l < k)%nat -> wfct l false (cv c) -> DropLevel pp o c k = Panic.
  Proof. intros H W. unfold DropLevel. rewrite (wfct_level pp _ _ _ W). cbn [rbind]. destruct (Nat.ltb_spec (S l) k); [reflexivity|lia]. Qed.

  (** *** one division *)
  (** the rounding correction of a row *)
  Definition delta (ml : modulus) (al : R) : R := mkR (fun k => (mq ml - 1) / 2 - (co al k + (mq ml - 1) / 2) mod mq ml).
  Lemma half_odd q : okq q -> 2 * ((q - 1) / 2) = q - 1.
  Proof. intros K. pose proof (okq_odd q K) as H. rewrite Zodd_bool_iff, Zodd_equiv in H || apply Z.odd_spec in H. destruct H as [k ->]. replace (2 * k + 1 - 1) with (k * 2) by ring. rewrite Z.div_mul by lia. ring. Qed.
  Lemma delta_bnd ml al : okq (mq ml) -> bnd (delta ml al) ((mq ml - 1) / 2).
  Proof.
    intros K i Hi. unfold delta. rewrite co_mkR by assumption. pose proof (half_odd _ K). destruct K as [P Q].
    pose proof (Z.mod_pos_bound (co al i + (mq ml - 1) / 2) (mq ml) ltac:(lia)). lia.
  Qed.
  Lemma delta_last ml al : okq (mq ml) -> eqm (mq ml) (add al (delta ml al)) R0.
  Proof.
    intros K. apply eqm_co. intros i Hi. rewrite co_add, co_R0. unfold delta. rewrite co_mkR by assumption. destruct K as [P Q].
    set (h := (mq ml - 1) / 2). exists ((co al i + h) / mq ml). pose proof (Z.div_mod (co al i + h) (mq ml) ltac:(lia)). lia.
  Qed.
  Lemma divround_ok m ml a al : okq (mq m) -> okq (mq ml) -> mq m <> mq ml ->
    canon m (divround_row m ml a al) /\ eqm (mq m) (smul (mq ml) (divround_row m ml a al)) (add a (delta ml al)).
  Proof.
    intros K KL NE. pose proof K as [P Q]. pose proof KL as [PL QL]. split.
    - intros i Hi. unfold divround_row. rewrite co_mkR by assumption. apply Z.mod_pos_bound. lia.
    - apply eqm_co. intros i Hi. rewrite co_smul, co_add. unfold divround_row, delta. rewrite !co_mkR by assumption.
      set (h := (mq ml - 1) / 2). set (z := co a i + h - (co al i + h) mod mq ml).
      replace (co a i + (h - (co al i + h) mod mq ml)) with z by (unfold z; ring).
      change (eqz (mq m) (mq ml * ((z * invm (mq m) (mq ml)) mod mq m)) z).
      eapply eqz_trans; [apply eqz_mul; [apply eqz_refl|apply eqz_mod]|].
      assert (ND : ~ (mq m | mq ml)).
      { intros D. apply prime_div_prime in D; [congruence|assumption|assumption]. }
      eapply eqz_trans; [|apply eqz_eq; apply Z.mul_1_r]. 
      replace (mq ml * (z * invm (mq m) (mq ml))) with (z * (mq ml * invm (mq m) (mq ml))) by ring. apply eqz_mul; [apply eqz_refl|]. apply invm_eqz; assumption.
  Qed.

  (** one division of a whole ciphertext: the integer polynomial m the phase stands for becomes (m + E) / q_level *)
  Definition div1 level (p : poly N) : poly N := Pol (tab level (fun j => divround_row (Qi pp j) (Qi pp level) (row (prows p) j) (row (prows p) level))) (pntt p).
  Definition dnoise n T : Z := 1 + Z.of_nat n * (Z.of_nat N * T).
  Lemma Q_neq i j : (i < length (Qm pp))%nat -> (j < length (Qm pp))%nat -> i <> j -> mq (Qi pp i) <> mq (Qi pp j).
  Proof.
    intros Hi Hj NE E. pose proof (proj1 (wf_base N pp WF)) as ND.
    assert (X : i = j); [|contradiction]. apply (proj1 (NoDup_nth (Qs pp ++ Ps pp) 0) ND); try (rewrite app_length; unfold Qs; rewrite map_length; lia).
    rewrite !app_nth1 by (unfold Qs; rewrite map_length; lia). rewrite !(nth_Qs pp) by assumption. exact E.
  Qed.
  Lemma eqm0_smul q (a : R) : eqm q a R0 -> exists c, a = smul q c.
  Proof. intros [c ->]. exists c. rewrite smul_cst. ring. Qed.
  Lemma div1_ok s level (c d : ct) T (m : R) : (1 <= level < length (Qm pp))%nat -> wfct level false c -> mwf d ->
    (forall x, In x (keys d) <-> In x (keys c)) -> (forall x, In x (keys c) -> comp d x = div1 level (comp c x)) ->
    (forall x, In x (parties c) -> bnd (s x) T) -> (forall j, (j <= level)%nat -> eqm (mq (Qi pp j)) (phase s c j) m) ->
    wfct (level - 1) false d /\ exists m' E, smul (mq (Qi pp level)) m' = add m E /\ bnd (smul 2 E) ((mq (Qi pp level) - 1) * dnoise (length (parties c)) T) /\
      forall j, (j <= level - 1)%nat -> eqm (mq (Qi pp j)) (phase s d j) m'.
  Proof.
    intros HL W WD KD CD HT HM. assert (KQ : forall j, (j <= level)%nat -> okq (mq (Qi pp j))) by (intros j Hj; apply (okQ pp WF j); lia).
    set (ml := Qi pp level) in *. pose proof (KQ level ltac:(lia)) as KL. fold ml in KL. pose proof KL as [PL QL].
    assert (RD : forall x j, In x (keys c) -> (j < level)%nat -> row (prows (comp d x)) j = divround_row (Qi pp j) ml (row (prows (comp c x)) j) (row (prows (comp c x)) level)).
    { intros x j Hx Hj. rewrite (CD x Hx). unfold div1. cbn [prows]. rewrite row_tab by assumption. reflexivity. }
    assert (WV : wfct (level - 1) false d).
    { apply wfct_intro; [exact WD|apply KD, W|]. intros x Hx. apply KD in Hx. destruct (wfct_comp pp _ _ _ _ W Hx) as (L & F & I).
      split; [rewrite (CD x Hx); unfold div1; cbn [prows]; rewrite tab_length; lia|]. split; [rewrite (CD x Hx); exact F|].
      intros j Hj. rewrite RD by (trivial; lia). apply canon_inr. apply divround_ok; [apply KQ; lia|exact KL|apply Q_neq; lia]. }
    split; [exact WV|].
    set (dl := fun x => delta ml (row (prows (comp c x)) level)).
    set (E := add (dl id0) (Lsum (parties c) (fun x => mul (dl x) (s x)))).
    assert (DB : forall x, bnd (smul 2 (dl x)) (mq ml - 1)).
    { intros x. eapply bnd_le; [apply bnd_smul; apply delta_bnd; exact KL|]. rewrite (Z.abs_eq 2) by lia. rewrite half_odd by exact KL. lia. }
    assert (E2 : eqm (mq ml) (add m E) R0).
    { eapply eqm_trans; [apply eqm_add; [apply eqm_sym; apply (HM level); lia|apply eqm_refl]|]. unfold CtSpec.phase, E.
      eapply eqm_trans; [apply eqm_eq|].
      - instantiate (1 := add (add (pvalue (comp c id0) level) (dl id0)) (Lsum (parties c) (fun x => mul (add (pvalue (comp c x) level) (dl x)) (s x)))).
        rewrite (Lsum_ext (parties c) (fun x => mul (add _ _) (s x)) (fun x => add (mul (pvalue (comp c x) level) (s x)) (mul (dl x) (s x)))) by (intros; ring). rewrite Lsum_add. ring.
      - eapply eqm_trans; [apply eqm_add; [rewrite (pval_row pp level c) by assumption; apply delta_last; exact KL|apply Lsum_eqm; intros x Hx; apply eqm_mul; [rewrite (pval_row pp level c) by assumption; apply delta_last; exact KL|apply eqm_refl]]|].
        apply eqm_eq. rewrite Lsum_zero by (intros; apply mul_0_l). ring. }
    destruct (eqm0_smul _ _ E2) as [m' Em']. exists m', E. split; [symmetry; exact Em'|]. split.
    - unfold dnoise. replace (smul 2 E) with (add (smul 2 (dl id0)) (Lsum (parties c) (fun x => mul (smul 2 (dl x)) (s x)))).
      + eapply bnd_le; [apply bnd_add; [apply DB|apply Lsum_bnd; intros x Hx; apply bnd_mul; [apply DB|apply HT; assumption]]|]. apply Z.eq_le_incl. ring.
      + unfold E. rewrite !smul_cst. rewrite (Lsum_ext (parties c) _ (fun x => mul (cst 2) (mul (dl x) (s x)))) by (intros; rewrite smul_cst; ring). rewrite Lsum_mul_l. ring.
    - intros j Hj. assert (Kj : okq (mq (Qi pp j))) by (apply KQ; lia). assert (NE : mq (Qi pp j) <> mq ml) by (apply Q_neq; lia).
      apply (eqm_cancel (mq (Qi pp j)) (mq ml)).
      { destruct Kj as [Pj _]. rewrite Z.gcd_comm. apply Zgcd_1_rel_prime. apply rel_prime_sym. apply prime_rel_prime; [assumption|].
        intros D. apply prime_div_prime in D; trivial. congruence. }
      rewrite <- Em'. eapply eqm_trans; [|apply eqm_add; [apply (HM j); lia|apply eqm_refl]]. rewrite smul_cst. unfold E.
      rewrite (phase_list pp s d j (parties c)); [|exact WD|apply parties_nodup; apply W|intros x; rewrite in_parties, KD; reflexivity].
      assert (RX : forall x, x = id0 \/ In x (parties c) -> eqm (mq (Qi pp j)) (mul (cst (mq ml)) (pvalue (comp d x) j)) (add (pvalue (comp c x) j) (dl x))).
      { intros x Hx. assert (Kx : In x (keys c)) by (destruct Hx as [->|Hx]; [apply W|apply in_parties in Hx; tauto]).
        rewrite (pval_row pp (level - 1) d), (pval_row pp level c) by assumption. rewrite RD by (trivial; lia). rewrite <- smul_cst. apply divround_ok; assumption. }
      unfold CtSpec.phase. eapply eqm_trans; [apply eqm_eq|].
      + instantiate (1 := add (mul (cst (mq ml)) (pvalue (comp d id0) j)) (Lsum (parties c) (fun x => mul (mul (cst (mq ml)) (pvalue (comp d x) j)) (s x)))).
        rewrite (Lsum_ext (parties c) (fun x => mul (mul _ _) (s x)) (fun x => mul (cst (mq ml)) (mul (pvalue (comp d x) j) (s x)))) by (intros; ring). rewrite Lsum_mul_l. ring.
      + eapply eqm_trans; [apply eqm_add; [apply RX; left; reflexivity|apply Lsum_eqm; intros x Hx; apply eqm_mul; [apply RX; right; assumption|apply eqm_refl]]|].
        apply eqm_eq. rewrite (Lsum_ext (parties c) _ (fun x => add (mul (pvalue (comp c x) j) (s x)) (mul (dl x) (s x)))) by (intros; ring). rewrite Lsum_add. ring.
  Qed.

  (** *** several divisions *)
  Definition divMany nb level (p : poly N) : poly N := Pol (divRoundMany pp nb level (prows p)) (pntt p).
  Lemma divMany_S nb level p : divMany (S nb) level p = divMany nb (level - 1) (div1 level p).
  Proof. reflexivity. Qed.
  Lemma dropped_S nb level : dropped pp (S nb) level = mq (Qi pp level) :: dropped pp nb (level - 1).
  Proof.
    unfold dropped. cbn [seq map]. rewrite Nat.sub_0_r. f_equal. rewrite <- seq_shift, map_map. apply map_ext. intros i. do 2 f_equal. lia.
  Qed.
  Lemma mget_map (f : poly N -> poly N) (c : ct) x : mget seq_dec (map (fun '(id, p) => (id, f p)) c) x = option_map f (mget seq_dec c x).
  Proof. induction c as [|[k v] c IH]; cbn; [reflexivity|]. destruct (seq_dec x k); [reflexivity|exact IH]. Qed.
  Lemma keys_map (f : poly N -> poly N) (c : ct) : keys (map (fun '(id, p) => (id, f p)) c) = keys c.
  Proof. unfold keys. rewrite map_map. apply map_ext. intros [k v]. reflexivity. Qed.
  Lemma dropped_pos nb : forall level, (level < length (Qm pp))%nat -> 1 <= prodl (dropped pp nb level).
  Proof.
    induction nb as [|nb IH]; intros level HL; [cbn; lia|]. rewrite dropped_S. cbn [prodl fold_right]. specialize (IH (level - 1)%nat ltac:(lia)).
    destruct (okQ pp WF level HL) as [_ [P Q]]. change (1 <= mq (Qi pp level) * prodl (dropped pp nb (level - 1))). nia.
  Qed.
  Lemma divMany_ok s T nb : forall level (c d : ct) (m : R), (nb <= level < length (Qm pp))%nat -> wfct level false c -> mwf d ->
    (forall x, In x (keys d) <-> In x (keys c)) -> (forall x, In x (keys c) -> comp d x = divMany nb level (comp c x)) ->
    (forall x, In x (parties c) -> bnd (s x) T) -> (forall j, (j <= level)%nat -> eqm (mq (Qi pp j)) (phase s c j) m) ->
    wfct (level - nb) false d /\ exists m' E, smul (prodl (dropped pp nb level)) m' = add m E /\
      bnd (smul 2 E) ((prodl (dropped pp nb level) - 1) * dnoise (length (parties c)) T) /\
      forall j, (j <= level - nb)%nat -> eqm (mq (Qi pp j)) (phase s d j) m'.
  Proof.
    induction nb as [|nb IH]; intros level c d m HL W WD KD CD HT HM.
    - rewrite Nat.sub_0_r. assert (CE : forall x, In x (keys c) -> comp d x = comp c x).
      { intros x Hx. rewrite (CD x Hx). unfold divMany. cbn [divRoundMany]. destruct (comp c x); reflexivity. }
      split; [apply wfct_intro; [exact WD|apply KD, W|intros x Hx; apply KD in Hx; rewrite (CE x Hx); apply (wfct_comp pp _ _ _ _ W Hx)]|].
      exists m, R0. split; [cbn; rewrite smul_cst, cst_1; ring|]. split.
      + cbn. intros i Hi. rewrite co_smul, co_R0. cbn. lia.
      + intros j Hj. rewrite (phase_eq s d c j); [apply HM; assumption|exact WD|apply W|exact KD|].
        intros x Hx. rewrite CE; [reflexivity|]. destruct Hx as [->|Hx]; [apply W|apply KD; assumption].
    - set (c1 := map (fun '(id, p) => (id, div1 level p)) c).
      assert (K1 : keys c1 = keys c) by apply keys_map.
      assert (C1 : forall x, In x (keys c) -> comp c1 x = div1 level (comp c x)).
      { intros x Hx. unfold comp, c1. rewrite mget_map. pose proof (proj2 (mget_In_keys seq_dec c x) Hx) as G. destruct (mget seq_dec c x); [reflexivity|congruence]. }
      assert (PC : parties c1 = parties c) by (unfold parties; rewrite K1; reflexivity).
      destruct (div1_ok s level c c1 T m) as (W1 & m1 & E1 & A1 & A2 & A3); trivial; [lia|unfold mwf; rewrite K1; apply W|intros; rewrite K1; reflexivity|].
      destruct (IH (level - 1)%nat c1 d m1) as (W2 & m2 & E2 & B1 & B2 & B3); trivial; [lia|intros x; rewrite KD, K1; reflexivity| |rewrite PC; exact HT|].
      { intros x Hx. rewrite K1 in Hx. rewrite (CD x Hx), divMany_S, (C1 x Hx). reflexivity. }
      replace (level - S nb)%nat with (level - 1 - nb)%nat by lia. split; [exact W2|].
      rewrite dropped_S. change (prodl (mq (Qi pp level) :: dropped pp nb (level - 1))) with (mq (Qi pp level) * prodl (dropped pp nb (level - 1))).
      set (q := mq (Qi pp level)) in *. set (P := prodl (dropped pp nb (level - 1))) in *. rewrite PC in B2. set (D := dnoise (length (parties c)) T) in *.
      assert (P1 : 1 <= P) by (apply dropped_pos; lia). assert (Q1 : 1 < q) by (destruct (okQ pp WF level ltac:(lia)) as [_ [PP QQ]]; unfold q; lia).
      exists m2, (add E1 (smul q E2)). split.
      + transitivity (smul q (smul P m2)); [rewrite !smul_cst, cst_mul; ring|]. rewrite B1. transitivity (add (smul q m1) (smul q E2)); [rewrite !smul_cst; ring|]. rewrite A1. ring.
      + split; [|exact B3]. replace (smul 2 (add E1 (smul q E2))) with (add (smul 2 E1) (smul q (smul 2 E2))) by (rewrite !smul_cst; ring).
        eapply bnd_le; [apply bnd_add; [exact A2|apply bnd_smul; exact B2]|]. rewrite (Z.abs_eq q) by lia. apply Z.eq_le_incl. ring.
  Qed.

  (** *** the number of divisions *)
  Lemma rscale_S level sc i : rscale pp level sc (S i) = f_div (rscale pp level sc i) (f_of_int (mq (Qi pp (level - i)))). Proof. reflexivity. Qed.
  Lemma rescLoop_gen level sc mh : forall fuel nb, (nb <= level + 1)%nat -> (level + 2 <= fuel + nb)%nat ->
    match rescLoop pp fuel level nb (rscale pp level sc nb) mh with
    | Panic => forall i, (nb <= i <= level)%nat -> f_ge (rscale pp level sc (S i)) mh = true
    | Ok (s', n) => (nb <= n <= level)%nat /\ s' = rscale pp level sc n /\ (forall i, (nb <= i < n)%nat -> f_ge (rscale pp level sc (S i)) mh = true) /\ f_ge (rscale pp level sc (S n)) mh = false
    end.
  Proof.
    induction fuel as [|fuel IH]; intros nb H1 H2; [lia|]. cbn [rescLoop]. destruct (Nat.ltb_spec level nb); [intros; lia|].
    rewrite <- (rscale_S level sc nb). destruct (f_ge (rscale pp level sc (S nb)) mh) eqn:G.
    - specialize (IH (S nb) ltac:(lia) ltac:(lia)). destruct (rescLoop pp fuel level (S nb) (rscale pp level sc (S nb)) mh) as [[s' n]|].
      + destruct IH as (A & B & C & D). split; [lia|]. split; [exact B|]. split; [|exact D]. intros i Hi. destruct (Nat.eq_dec i nb) as [->|]; [exact G|]. apply C. lia.
      + intros i Hi. destruct (Nat.eq_dec i nb) as [->|]; [exact G|]. apply IH. lia.
    - split; [lia|]. split; [reflexivity|]. split; [intros; lia|exact G].
  Qed.
  (** nb is the first number of divisions after which one more would bring the scale below mh *)
  Definition resc_count level sc mh nb : Prop :=
    (nb <= level)%nat /\ (forall i, (i < nb)%nat -> f_ge (rscale pp level sc (S i)) mh = true) /\ f_ge (rscale pp level sc (S nb)) mh = false.
  Lemma rescLoop_ok level sc mh nb : resc_count level sc mh nb -> rescLoop pp (level + 2) level 0 sc mh = Ok (rscale pp level sc nb, nb).
  Proof.
    intros (A & B & C). pose proof (rescLoop_gen level sc mh (level + 2) 0 ltac:(lia) ltac:(lia)) as X. change (rscale pp level sc 0) with sc in X.
    destruct (rescLoop pp (level + 2) level 0 sc mh) as [[s' n]|].
    - destruct X as (X1 & X2 & X3 & X4). destruct (lt_eq_lt_dec n nb) as [[L|E]|G].
      + rewrite (B n L) in X4. discriminate.
      + subst. reflexivity.
      + rewrite (X3 nb) in C by lia. discriminate.
    - rewrite (X nb) in C by lia. discriminate.
  Qed.
  Lemma rescLoop_panic level sc mh : (forall i, (i <= level)%nat -> f_ge (rscale pp level sc (S i)) mh = true) -> rescLoop pp (level + 2) level 0 sc mh = Panic.
  Proof.
    intros H. pose proof (rescLoop_gen level sc mh (level + 2) 0 ltac:(lia) ltac:(lia)) as X. change (rscale pp level sc 0) with sc in X.
    destruct (rescLoop pp (level + 2) level 0 sc mh) as [[s' n]|]; [|reflexivity]. destruct X as (X1 & X2 & X3 & X4). rewrite H in X4 by lia. discriminate.
  Qed.

  (** *** Rescale *)
  Definition resc_args (c : ckct N) (minScale : f64) : Prop := f_le minScale f_zero = false /\ f_eq (csc c) f_zero = false.
  Lemma Rescale_ok o (c : ckct N) minScale (out : option (ckct N)) level nb : ord1_ok o -> (1 <= level < length (Qm pp))%nat -> wfct level false (cv c) ->
    resc_args c minScale -> resc_count level (csc c) (f_div minScale (f_of_int 2)) nb ->
    (forall d, out = Some d -> shape (S level) (cv d) /\ forall x, In x (keys (cv d)) <-> In x (keys (cv c))) ->
    exists v, Rescale pp o c minScale out = Ok (CK v (rscale pp level (csc c) nb), false) /\
      ((0 < nb)%nat -> mwf v /\ (forall x, In x (keys v) <-> In x (keys (cv c))) /\ forall x, In x (keys (cv c)) -> comp v x = divMany nb level (comp (cv c) x)) /\
      (nb = 0%nat -> v = cv (match out with Some d => d | None => c end)).
  Proof.
    intros O HL W [M1 M2] RC HO. unfold Rescale. rewrite M1, M2, (wfct_level pp _ _ _ W). cbn [rbind]. destruct (Nat.eqb_spec level 0); [lia|].
    rewrite (rescLoop_ok _ _ _ _ RC). cbn [rbind]. set (ctOut := match out with Some c => c | None => c end) in *.
    assert (SO : shape (S level) (cv ctOut) /\ forall x, In x (keys (cv ctOut)) <-> In x (keys (cv c))).
    { unfold ctOut. destruct out as [d|]; [apply HO; reflexivity|]. split; [apply (wfct_shape pp); assumption|reflexivity]. }
    destruct SO as [SO KO]. destruct (Nat.ltb_spec 0 nb) as [Hnb|Hnb].
    - destruct (loop1 (fun v id => p <- cgetL (match out with Some _ => cv c | None => v end) id level ;; q <- cget v id ;;
             (if (length (prows q) <? S level - nb)%nat then Panic else Ok (cset v id (Pol (divRoundMany pp nb level (prows p)) (pntt q)))))
         (fun x p => divMany nb level (comp (cv c) x)) (o (keys (cv ctOut))) (cv ctOut)) as (v & V1 & V2 & V3 & V4).
      + apply (Permutation_NoDup (Permutation_sym (O _))). apply SO.
      + apply SO.
      + intros x Hx. apply (Permutation_in _ (O _)). assumption.
      + intros d id Hid Wd K E. apply (Permutation_in _ (O _)) in Hid. pose proof (proj1 (KO id) Hid) as Hc. destruct (wfct_comp pp _ _ _ _ W Hc) as (L & F & _).
        destruct (proj2 (proj2 SO) id Hid) as [LO FO]. 
        assert (G : cgetL (match out with Some _ => cv c | None => d end) id level = Ok (comp (cv c) id)).
        { unfold ctOut in *. destruct out as [u|]; [apply cgetL_comp; [assumption|lia]|]. rewrite cgetL_comp; [rewrite E; reflexivity|apply K; assumption|rewrite E; lia]. }
        rewrite G. cbn [rbind]. rewrite cget_comp by (apply K; assumption). cbn [rbind]. rewrite E.
        destruct (Nat.ltb_spec (length (prows (comp (cv ctOut) id))) (S level - nb)); [lia|]. rewrite FO. unfold divMany. rewrite F. reflexivity.
      + rewrite V1. cbn [rbind]. exists v. split; [reflexivity|]. split; [|intros ->; lia]. intros _. split; [exact V2|]. split; [intros x; rewrite V3; apply KO|].
        intros x Hx. rewrite V4. destruct (in_dec string_dec x (o (keys (cv ctOut)))) as [|n1]; [reflexivity|]. exfalso. apply n1. apply (Permutation_in _ (Permutation_sym (O _))). apply KO. assumption.
    - assert (nb = 0%nat) by lia. subst nb. exists (cv ctOut). split; [reflexivity|]. split; [intros; lia|]. reflexivity.
  Qed.
  (** the phase after a rescaling in place (also when no division happens) *)
  Lemma Rescale_phase (c : ckct N) level nb (v : ct) s T (m : R) : (nb <= level < length (Qm pp))%nat -> wfct level false (cv c) ->
    ((0 < nb)%nat -> mwf v /\ (forall x, In x (keys v) <-> In x (keys (cv c))) /\ forall x, In x (keys (cv c)) -> comp v x = divMany nb level (comp (cv c) x)) -> (nb = 0%nat -> v = cv c) ->
    (forall x, In x (parties (cv c)) -> bnd (s x) T) -> (forall j, (j <= level)%nat -> eqm (mq (Qi pp j)) (phase s (cv c) j) m) ->
    wfct (level - nb) false v /\ (forall x, In x (keys v) <-> In x (keys (cv c))) /\ exists m' E, smul (prodl (dropped pp nb level)) m' = add m E /\
      bnd (smul 2 E) ((prodl (dropped pp nb level) - 1) * dnoise (length (parties (cv c))) T) /\
      forall j, (j <= level - nb)%nat -> eqm (mq (Qi pp j)) (phase s v j) m'.
  Proof.
    intros HL W H1 H2 HT HM.
    assert (X : mwf v /\ (forall x, In x (keys v) <-> In x (keys (cv c))) /\ forall x, In x (keys (cv c)) -> comp v x = divMany nb level (comp (cv c) x)).
    { destruct nb as [|nb]; [|apply H1; lia]. rewrite (H2 eq_refl). split; [apply W|]. split; [reflexivity|]. intros x Hx. unfold divMany. cbn [divRoundMany]. destruct (comp (cv c) x); reflexivity. }
    destruct X as (A & B & C). destruct (divMany_ok s T nb level (cv c) v m HL W A B C HT HM) as (D & E). split; [exact D|]. split; [exact B|exact E].
  Qed.

  (** *** MulPtxtNew before its rescaling *)
  Lemma mulpt_ok (o : order) (c : ckct N) level (pt : poly N) (pool : list R) (out : ct) o1 : ord1_ok o1 -> (level < length (Qm pp))%nat -> wfct level false (cv c) -> shape (S level) out ->
    (forall x, In x (keys out) <-> In x (keys (cv c))) -> (forall j, (j <= level)%nat -> inr (Qi pp j) (row (prows pt) j)) ->
    (forall j, (j <= level)%nat -> row pool j = r_mform (Qi pp j) (ntt (Qi pp j) (row (prows pt) j))) ->
    exists v, rfold (fun v id => p <- cgetL (cv c) id level ;; q <- cget v id ;;
           Ok (cset v id (Pol (lvlQ1 pp level intt (lvlQ2 pp level r_mont (lvlQ1 pp level ntt (prows p)) pool)) (pntt q)))) (o1 (keys (cv c))) out = Ok v /\
      wfct level false v /\ (forall x, In x (keys v) <-> In x (keys (cv c))) /\
      forall s j, (j <= level)%nat -> eqm (mq (Qi pp j)) (phase s v j) (mul (row (prows pt) j) (phase s (cv c) j)).
  Proof.
    intros O HL W SO KO IP HP.
    destruct (loop1 (fun v id => p <- cgetL (cv c) id level ;; q <- cget v id ;;
           Ok (cset v id (Pol (lvlQ1 pp level intt (lvlQ2 pp level r_mont (lvlQ1 pp level ntt (prows p)) pool)) (pntt q))))
       (fun x _ => Pol (lvlQ1 pp level intt (lvlQ2 pp level r_mont (lvlQ1 pp level ntt (prows (comp (cv c) x))) pool)) false) (o1 (keys (cv c))) out) as (v & V1 & V2 & V3 & V4).
    - apply (Permutation_NoDup (Permutation_sym (O _))). apply W.
    - apply SO.
    - intros x Hx. apply KO. apply (Permutation_in _ (O _)). assumption.
    - intros d id Hid Wd K E. apply (Permutation_in _ (O _)) in Hid. destruct (wfct_comp pp _ _ _ _ W Hid) as (L & F & _).
      rewrite cgetL_comp by (trivial; lia). cbn [rbind]. rewrite cget_comp by (apply K, KO; assumption). cbn [rbind]. rewrite E, (proj2 (proj2 (proj2 SO) id (proj2 (KO id) Hid))). reflexivity.
    - exists v. split; [exact V1|].
      assert (KV : forall x, In x (keys v) <-> In x (keys (cv c))) by (intros x; rewrite V3; apply KO).
      assert (C : forall x, In x (keys v) -> comp v x = Pol (lvlQ1 pp level intt (lvlQ2 pp level r_mont (lvlQ1 pp level ntt (prows (comp (cv c) x))) pool)) false).
      { intros x Hx. rewrite V4. destruct (in_dec string_dec x (o1 (keys (cv c)))) as [|n]; [reflexivity|]. exfalso. apply n. apply (Permutation_in _ (Permutation_sym (O _))). apply KV. assumption. }
      assert (RW : forall x j, In x (keys v) -> (j <= level)%nat -> row (prows (comp v x)) j = intt (Qi pp j) (r_mont (Qi pp j) (ntt (Qi pp j) (row (prows (comp (cv c) x)) j)) (row pool j))).
      { intros x j Hx Hj. rewrite (C x Hx). cbn [prows]. unfold lvlQ1, lvlQ2. rewrite !row_tab by lia. reflexivity. }
      assert (WV : wfct level false v).
      { apply wfct_intro; [exact V2|apply KV, W|]. intros x Hx. rewrite (C x Hx). apply wfpoly_tab. intros j Hj. apply canon_inr. apply intt_canon. apply (okQ pp WF). lia. }
      split; [exact WV|]. split; [exact KV|]. intros s j Hj. apply phase_scale; [apply W|exact V2|intros x Hx; apply KV; assumption|].
      intros x Hx. assert (Ix : In x (keys v)) by (destruct Hx as [Hx|Ex]; [exact Hx|subst x; apply KV, W]).
      rewrite (pval_row pp level v), (pval_row pp level (cv c)) by assumption. rewrite (RW x j Ix Hj), (HP j Hj).
      pose proof (okQ pp WF j ltac:(lia)) as OKj. destruct (wfct_comp pp _ _ _ _ W (proj1 (KV x) Ix)) as (L & F & I).
      assert (NW : forall a : R, wrd (ntt (Qi pp j) a)) by (intros a; apply (canon_wrd (Qi pp j)); [apply OKj|apply ntt_canon; exact OKj]).
      destruct (r_mform_ok (Qi pp j) (ntt (Qi pp j) (row (prows pt) j)) (proj2 OKj) (NW _)) as [MC _].
      rewrite r_mont_comm. apply (rep_mont (Qi pp j)); [exact OKj|apply canon_inr; exact MC|apply NW| |apply rep_ntt; exact OKj].
      apply rep_mform; [exact OKj|apply NW|apply rep_ntt; exact OKj].
  Qed.
End Rs.
