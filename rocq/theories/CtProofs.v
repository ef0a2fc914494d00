(** Containers and the phase: lemmas used by encryption, decryption and the evaluator. *)
From Verif Require Import Base IdSetModel NumTheory Negacyclic Ntt Word BasisExt BasisExtProofs Rows RlweModel KeyGenModel SchemeSpec ExtProd ExtProps KeyGenProofs CtModel CtSpec.
From Coq Require Import Znumtheory Setoid Morphisms.
Open Scope Z_scope.

Lemma mul_0_l N (a : R N) : mul R0 a = R0.
Proof. apply (Rmul_0_l (Eqsth _) (Eq_ext _ _ _) (@R_ring_theory N)). Qed.
Lemma add_0_r N (a : R N) : add a R0 = a.
Proof. apply R_ext. intros i _. rewrite co_add, co_R0. lia. Qed.
Lemma add_0_l N (a : R N) : add R0 a = a.
Proof. apply R_ext. intros i _. rewrite co_add, co_R0. lia. Qed.
Lemma nodup_app {A} (l l' : list A) : NoDup l -> NoDup l' -> (forall x, In x l -> ~ In x l') -> NoDup (l ++ l').
Proof.
  intros H H' D. induction l as [|y l IH]; cbn; [assumption|]. inversion H; subst. constructor.
  - rewrite in_app_iff. intros [?|?]; [contradiction|]. apply (D y); [left; reflexivity|assumption].
  - apply IH; [assumption|]. intros x Hx. apply D. right. assumption.
Qed.

Section Ct.
  Context {N : nat} (pp : rparams) (WF : wfp N pp).
  Notation R := (R N). Notation ct := (ctT N).
  Notation phase := (@phase N pp). Notation pvalue := (@pvalue N pp). Notation wfct := (@wfct N pp). Notation wfpoly := (@wfpoly N pp).
  Add Ring R_ring6 : (@R_ring_theory N).

  Lemma comp_cset (c : ct) id p x : comp (cset c id p) x = if string_dec x id then p else comp c x.
  Proof. unfold comp, cset. rewrite mget_mset. destruct (seq_dec x id), (string_dec x id); try congruence; reflexivity. Qed.
  Lemma comp_eq (c : ct) id p : comp (cset c id p) id = p.
  Proof. rewrite comp_cset. destruct (string_dec id id); congruence. Qed.
  Lemma comp_neq (c : ct) id p x : x <> id -> comp (cset c id p) x = comp c x.
  Proof. intros. rewrite comp_cset. destruct (string_dec x id); congruence. Qed.
  Lemma cget_comp (c : ct) id : In id (keys c) -> cget c id = Ok (comp c id).
  Proof. intros H. apply (mget_In_keys seq_dec) in H. unfold cget, comp. destruct (mget seq_dec c id); congruence. Qed.
  Lemma cget_none (c : ct) id : ~ In id (keys c) -> cget c id = Panic.
  Proof. intros H. apply (mget_None seq_dec) in H. unfold cget. rewrite H. reflexivity. Qed.
  Lemma mget_comp (c : ct) id : In id (keys c) -> mget seq_dec c id = Some (comp c id).
  Proof. intros H. apply (mget_In_keys seq_dec) in H. unfold comp. destruct (mget seq_dec c id); congruence. Qed.
  Lemma keys_cset (c : ct) id p x : In x (keys (cset c id p)) <-> x = id \/ In x (keys c).
  Proof. apply keys_mset. Qed.
  Lemma in_parties (c : ct) x : In x (parties c) <-> x <> id0 /\ In x (keys c).
  Proof. unfold parties. rewrite filter_In. destruct (string_dec x id0); split; intuition congruence. Qed.
  Lemma parties_nodup (c : ct) : mwf c -> NoDup (parties c).
  Proof. apply NoDup_filter. Qed.

  Lemma phase_list s (c : ct) j l : mwf c -> NoDup l -> (forall x, In x l <-> x <> id0 /\ In x (keys c)) ->
    phase s c j = add (pvalue (comp c id0) j) (Lsum l (fun id => mul (pvalue (comp c id) j) (s id))).
  Proof.
    intros W ND H. unfold CtSpec.phase. f_equal. apply Lsum_perm. apply NoDup_Permutation; [apply parties_nodup; assumption|assumption|].
    intros x. rewrite in_parties, H. reflexivity.
  Qed.
  (** two ciphertexts with the same components have the same phase *)
  Lemma phase_ext s (c d : ct) j : mwf c -> mwf d -> (forall id, mget seq_dec c id = mget seq_dec d id) -> phase s c j = phase s d j.
  Proof.
    intros W1 W2 H. rewrite (phase_list s d j (parties c)); trivial.
    - unfold CtSpec.phase. assert (E : forall id, comp c id = comp d id) by (intros; unfold comp; rewrite H; reflexivity).
      rewrite E. f_equal. apply Lsum_ext. intros; rewrite E; reflexivity.
    - apply parties_nodup. assumption.
    - intros x. rewrite in_parties, <- !(mget_In_keys seq_dec), H. reflexivity.
  Qed.

  Lemma wfct_comp level fl (c : ct) id : wfct level fl c -> In id (keys c) -> wfpoly level fl (comp c id).
  Proof. intros (_ & _ & H) I. apply (H id). apply mget_comp. assumption. Qed.
  Lemma wfct_cset level fl (c : ct) id p : wfct level fl c -> wfpoly level fl p -> wfct level fl (cset c id p).
  Proof.
    intros (A & B & C) P. split; [apply mwf_mset; assumption|]. split; [apply keys_cset; right; assumption|].
    intros x q. unfold cset. rewrite mget_mset. destruct (seq_dec x id); [intros [= <-]; assumption|apply C].
  Qed.
  Lemma wfct_mdel level fl (c : ct) id : wfct level fl c -> id <> id0 -> wfct level fl (mdel seq_dec c id).
  Proof.
    intros (A & B & C) P. split; [apply mwf_mdel; assumption|]. split; [apply keys_mdel; split; [congruence|assumption]|].
    intros x q. rewrite mget_mdel. destruct (seq_dec x id); [discriminate|apply C].
  Qed.
  Lemma wfct_level level fl (c : ct) : wfct level fl c -> ctLevel c = Ok level.
  Proof.
    intros H. unfold ctLevel. rewrite cget_comp by apply H. cbn [rbind]. unfold plevel.
    rewrite (proj1 (wfct_comp _ _ _ _ H (proj1 (proj2 H)))). f_equal. lia.
  Qed.

  (** *** copies *)
  Lemma fold_cset_get (f : string -> poly N) l : forall (c : ct) x,
    mget seq_dec (fold_left (fun c id => cset c id (f id)) l c) x = if in_dec string_dec x l then Some (f x) else mget seq_dec c x.
  Proof.
    induction l as [|y l IH]; intros c x; cbn [fold_left]; [reflexivity|].
    rewrite IH. unfold cset. rewrite mget_mset. cbn [in_dec]. destruct (in_dec string_dec x l) as [I|I].
    - destruct (in_dec string_dec x (y :: l)) as [|n]; [reflexivity|]. exfalso. apply n. right. assumption.
    - destruct (seq_dec x y) as [->|n].
      + destruct (in_dec string_dec y (y :: l)) as [|n]; [reflexivity|]. exfalso. apply n. left. reflexivity.
      + destruct (in_dec string_dec x (y :: l)) as [[|]|]; congruence.
  Qed.
  Lemma fold_cset_wf (f : string -> poly N) l : forall (c : ct), mwf c -> mwf (fold_left (fun c id => cset c id (f id)) l c).
  Proof. induction l as [|y l IH]; intros c H; cbn [fold_left]; [assumption|]. apply IH. apply mwf_mset. assumption. Qed.
  Lemma rfold_fold {A B} (f : B -> A -> res B) (g : B -> A -> B) l : (forall b x, In x l -> f b x = Ok (g b x)) -> forall b, rfold f l b = Ok (fold_left g l b).
  Proof. induction l as [|x l IH]; intros H b; cbn; [reflexivity|]. rewrite H by (left; reflexivity). cbn. apply IH. intros; apply H; right; assumption. Qed.

  Lemma CopyNew_ok o (c : ct) : ord1_ok o -> mwf c -> In id0 (keys c) ->
    exists c', CopyNew o c = Ok c' /\ mwf c' /\ forall id, mget seq_dec c' id = mget seq_dec c id.
  Proof.
    intros O W I0. unfold CopyNew. rewrite cget_comp by assumption. cbn [rbind].
    rewrite (rfold_fold _ (fun d id => cset d id (comp c id))).
    2:{ intros b x Hx. rewrite cget_comp; [reflexivity|]. apply (Permutation_in _ (O (keys c))). assumption. }
    eexists. split; [reflexivity|]. split; [apply fold_cset_wf; apply mwf_mset; constructor|].
    intros id. rewrite fold_cset_get. destruct (in_dec string_dec id (o (keys c))) as [I|I].
    - symmetry. apply mget_comp. apply (Permutation_in _ (O (keys c))). assumption.
    - unfold cset. rewrite mget_mset. destruct (seq_dec id id0) as [->|].
      + exfalso. apply I. apply (Permutation_in _ (Permutation_sym (O (keys c)))). assumption.
      + cbn. symmetry. apply mget_None. intros J. apply I. apply (Permutation_in _ (Permutation_sym (O (keys c)))). assumption.
  Qed.
  Lemma wfct_ext level fl (c d : ct) : mwf d -> (forall id, mget seq_dec d id = mget seq_dec c id) -> wfct level fl c -> wfct level fl d.
  Proof.
    intros W E (A & B & C). split; [assumption|]. split.
    - apply (mget_In_keys seq_dec). rewrite E. apply (mget_In_keys seq_dec). assumption.
    - intros id p H. apply (C id). rewrite <- E. assumption.
  Qed.

  Lemma IDSetOf_ok o (c : ct) : ord1_ok o -> exists ids, IDSetOf o c = Ok ids /\ mwf ids /\ forall x, is_has ids x = true <-> x <> id0 /\ In x (keys c).
  Proof.
    intros O. unfold IDSetOf.
    rewrite (rfold_fold _ (fun (s : idset) id => if string_dec id id0 then s else mset seq_dec s id tt)).
    2:{ intros b x _. unfold is_add. destruct (string_dec x id0); reflexivity. }
    eexists. split; [reflexivity|].
    assert (G : forall l (s : idset), mwf s -> mwf (fold_left (fun (s : idset) id => if string_dec id id0 then s else mset seq_dec s id tt) l s) /\
       forall x, In x (keys (fold_left (fun (s : idset) id => if string_dec id id0 then s else mset seq_dec s id tt) l s)) <-> In x (keys s) \/ (x <> id0 /\ In x l)).
    { induction l as [|y l IH]; intros s W; cbn [fold_left]; [split; [assumption|intros; cbn; tauto]|].
      destruct (string_dec y id0) as [->|n].
      - destruct (IH s W) as [A B]. split; [assumption|]. intros x. rewrite B. cbn. intuition congruence.
      - destruct (IH (mset seq_dec s y tt) (mwf_mset _ _ _ _ W)) as [A B]. split; [assumption|]. intros x. rewrite B, keys_mset. cbn. intuition congruence. }
    destruct (G (o (keys c)) is_new ltac:(constructor)) as [A B]. split; [assumption|].
    intros x. unfold is_has. rewrite mhas_In, B. cbn. split.
    - intros [[]|[H1 H2]]. split; [assumption|]. apply (Permutation_in _ (O (keys c))). assumption.
    - intros [H1 H2]. right. split; [assumption|]. apply (Permutation_in _ (Permutation_sym (O (keys c)))). assumption.
  Qed.

  (** *** row-wise operations *)
  Lemma wfpoly_tab level fl (f : nat -> R) : (forall j, (j <= level)%nat -> inr (Qi pp j) (f j)) -> wfpoly level fl (Pol (tab (S level) f) fl).
  Proof. intros H. split; [apply tab_length|]. split; [reflexivity|]. intros j Hj. cbn [prows]. rewrite row_tab by lia. apply H. assumption. Qed.
  Lemma lvlQ1_len level f (a : list R) : length (lvlQ1 pp level f a) = S level. Proof. apply tab_length. Qed.
  Lemma lvlQ2_len level f (a b : list R) : length (lvlQ2 pp level f a b) = S level. Proof. apply tab_length. Qed.
  Lemma okQ j : (j < length (Qm pp))%nat -> okmod (N := N) (Qi pp j).
  Proof. intros H. apply (okmod_md pp WF j (MQ j) H). cbn. lia. Qed.
End Ct.
