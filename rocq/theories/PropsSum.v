(** C72: a sum of ciphertexts does not depend on the order or the grouping of its additions, bit by bit.
    Specification: sum_tree, leaves, minimum, reduced and sameCt below. *)
From Flocq Require Import Core BinarySingleNaN.
From Coq Require Import Znumtheory Setoid Morphisms Reals Lra Permutation.
From Verif Require Import Base IdSetModel IdSetSpec IdSetProofs KeySetModel NumTheory Negacyclic Ntt Word BasisExt BasisExtProofs Rows RlweModel KeyGenModel SchemeSpec ExtProd ExtProps Galois KeyGenProofs Instance CtModel CtSpec CtProofs EncDecProofs HeapModel HeapProofs PropsEnc KeySwitchModel Digits KsLoops RotProofs MulProofs PropsKeySwitch IndexModel PropsIndex FloatModel CkksFloat CkksModel FloatProofs CkksFloatProofs CkksProofs CkksRescale PropsCkks PropsRescale PropsConst PropsMulRelin PropsCkksEx Slots PropsSlots PropsRotate BfvModel PropsBfv.
Open Scope Z_scope.

(** a way to add up ciphertexts: [Leaf i] is the i-th one, [Plus o a b] calls AddNew (Go's map iteration orders of that call: o) on the results of a and b *)
Inductive sum_tree : Type := Leaf (i : nat) | Plus (o : IdSetModel.order) (a b : sum_tree).
(** the ciphertexts it adds, from left to right *)
Fixpoint leaves (t : sum_tree) : list nat := match t with Leaf i => [i] | Plus _ a b => leaves a ++ leaves b end.
Fixpoint orders_ok (t : sum_tree) : Prop := match t with Leaf _ => True | Plus o a b => order_ok o /\ orders_ok a /\ orders_ok b end.
(** the calls on one mkckks Evaluator, whose scratch space is handed on from call to call; and on an mkbfv Evaluator *)
Fixpoint sumTree {N} pp (st : evalst N) (c : nat -> ckct N) (t : sum_tree) : res (evalst N * ckct N) :=
  match t with
  | Leaf i => Ok (st, c i)
  | Plus o a b => '(st, x) <- sumTree pp st c a ;; '(st, y) <- sumTree pp st c b ;; AddNew pp o st x y
  end.
Fixpoint bSumTree {N} pp (c : nat -> ctT N) (t : sum_tree) : res (ctT N) :=
  match t with
  | Leaf i => Ok (c i)
  | Plus o a b => x <- bSumTree pp c a ;; y <- bSumTree pp c b ;; bAddNew pp o x y
  end.
(** m is the least of the values of f on l *)
Definition minimum (f : nat -> nat) (l : list nat) (m : nat) : Prop := (exists i, In i l /\ f i = m) /\ forall i, In i l -> (m <= f i)%nat.
(** a coefficient-domain ciphertext of a level, all of whose coefficients are smaller than their moduli *)
Definition reduced {N} pp level (c : ctT N) : Prop :=
  wfct pp level false c /\ forall x j, In x (keys c) -> (j <= level)%nat -> canon (Qi pp j) (row (prows (comp c x)) j).
(** the same identities with the same polynomials *)
Definition sameCt {N} (u v : ctT N) : Prop := forall x, (In x (keys u) <-> In x (keys v)) /\ mget seq_dec u x = mget seq_dec v x.

Section Sum.
  Context {N : nat} (pp : rparams) (WF : wfp N pp).
  Notation R := (R N). Notation ct := (ctT N).
  Add Ring R_ring72 : (@R_ring_theory N).
  Notation order := IdSetModel.order.

  (** v is, coefficient by coefficient, the sum of the ciphertexts c i (i in l) modulo each Q_j *)
  Definition isSum level (c : nat -> ct) (l : list nat) (v : ct) : Prop :=
    reduced pp level v /\ (forall x, In x (keys v) <-> exists i, In i l /\ In x (keys (c i))) /\
    forall x j, In x (keys v) -> (j <= level)%nat -> row (prows (comp v x)) j = redm (mq (Qi pp j)) (Lsum l (fun i => row (prows (comp (c i) x)) j)).

  Lemma okQ' j : (j < length (Qm pp))%nat -> okq (mq (Qi pp j)).
  Proof. intros H. apply (okQ pp WF j). exact H. Qed.
  Lemma redm_canon m (a : R) : okq (mq m) -> canon m (redm (mq m) a).
  Proof. intros K i Hi. apply okq_lt in K. unfold redm. rewrite co_mkR by exact Hi. apply Z.mod_pos_bound. lia. Qed.
  Lemma redm_of_canon m (a b : R) : okq (mq m) -> canon m a -> eqm (mq m) a b -> a = redm (mq m) b.
  Proof. intros K A E. apply (canon_eqm m); [exact K|exact A|apply redm_canon; exact K|]. eapply eqm_trans; [exact E|]. apply eqm_sym. apply redm_eqm. Qed.
  Lemma redm_small m (a : R) : okq (mq m) -> canon m a -> redm (mq m) a = a.
  Proof. intros K A. symmetry. apply redm_of_canon; [exact K|exact A|apply eqm_refl]. Qed.
  Lemma Lsum_perm l l' (f : nat -> R) : Permutation l l' -> Lsum l f = Lsum l' f.
  Proof. intros P. induction P; cbn [Lsum]; try congruence; ring. Qed.

  Lemma isSum_leaf level (c : nat -> ct) i : (level < length (Qm pp))%nat -> reduced pp level (c i) -> isSum level c [i] (c i).
  Proof.
    intros HL H. split; [exact H|]. split.
    - intros x. split; [intros I; exists i; split; [left; reflexivity|exact I]|]. intros (k & [->|[]] & I). exact I.
    - intros x j I Hj. cbn [Lsum]. replace (add (row (prows (comp (c i) x)) j) R0) with (row (prows (comp (c i) x)) j) by ring. symmetry. apply redm_small; [apply okQ'; lia|apply H; assumption].
  Qed.

  (** what an addition of two partial sums has to produce *)
  Lemma isSum_plus (c : nat -> ct) la lb l0 l1 (u w v : ct) : let level := Nat.min l0 l1 in (level < length (Qm pp))%nat ->
    isSum l0 c la u -> isSum l1 c lb w -> wfct pp level false v -> (forall x, In x (keys v) <-> In x (keys u) \/ In x (keys w)) ->
    (forall x j, In x (keys v) -> (j <= level)%nat -> row (prows (comp v x)) j =
       if in_dec string_dec x (keys u) then if in_dec string_dec x (keys w) then r_add (Qi pp j) (row (prows (comp u x)) j) (row (prows (comp w x)) j) else row (prows (comp u x)) j else row (prows (comp w x)) j) ->
    isSum level c (la ++ lb) v.
  Proof.
    intros level HL (Ru & Ku & Su) (Rw & Kw & Sw) W K S.
    assert (E : forall x j, In x (keys v) -> (j <= level)%nat -> canon (Qi pp j) (row (prows (comp v x)) j) /\
      eqm (mq (Qi pp j)) (row (prows (comp v x)) j) (add (Lsum la (fun i => row (prows (comp (c i) x)) j)) (Lsum lb (fun i => row (prows (comp (c i) x)) j)))).
    { intros x j I Hj. assert (KQ : okq (mq (Qi pp j))) by (apply okQ'; lia). rewrite (S x j I Hj). apply K in I.
      assert (Z : forall l, (forall i, In i l -> ~ In x (keys (c i))) -> Lsum l (fun i => row (prows (comp (c i) x)) j) = R0).
      { induction l as [|i l IH]; intros H; [reflexivity|]. cbn [Lsum]. rewrite IH by (intros k Hk; apply H; right; exact Hk). rewrite row_none by (apply H; left; reflexivity). ring. }
      destruct (in_dec string_dec x (keys u)) as [Iu|Iu]; [destruct (in_dec string_dec x (keys w)) as [Iw|Iw]|].
      - pose proof (proj2 Ru x j Iu ltac:(lia)) as Cu. pose proof (proj2 Rw x j Iw ltac:(lia)) as Cw. split; [apply r_add_canon; [exact KQ|apply canon_inr; exact Cu|exact Cw]|].
        eapply eqm_trans; [apply r_add_ok; [exact KQ|apply canon_inr; exact Cu|apply canon_inr; exact Cw]|]. apply eqm_add.
        + rewrite (Su x j Iu) by lia. apply redm_eqm.
        + rewrite (Sw x j Iw) by lia. apply redm_eqm.
      - split; [apply Ru; [exact Iu|lia]|]. rewrite (Z lb) by (intros i Hi J; apply Iw; apply Kw; exists i; split; assumption). rewrite (Su x j Iu) by lia.
        eapply eqm_trans; [apply redm_eqm|]. apply eqm_eq. ring.
      - destruct I as [I|I]; [contradiction|]. split; [apply Rw; [exact I|lia]|]. rewrite (Z la) by (intros i Hi J; apply Iu; apply Ku; exists i; split; assumption). rewrite (Sw x j I) by lia.
        eapply eqm_trans; [apply redm_eqm|]. apply eqm_eq. ring. }
    split; [split; [exact W|intros x j I Hj; apply E; assumption]|]. split.
    - intros x. rewrite K, Ku, Kw. split.
      + intros [(i & I & J)|(i & I & J)]; exists i; (split; [apply in_or_app; tauto|exact J]).
      + intros (i & I & J). apply in_app_or in I as [I|I]; [left|right]; exists i; split; assumption.
    - intros x j I Hj. destruct (E x j I Hj) as [E1 E2]. apply redm_of_canon; [apply okQ'; lia|exact E1|]. eapply eqm_trans; [exact E2|]. apply eqm_eq.
      clear. induction la as [|i la IH]; cbn [app Lsum]; [ring|]. rewrite <- IH. ring.
  Qed.

  Lemma isSum_unique level (c : nat -> ct) l l' (v v' : ct) : isSum level c l v -> isSum level c l' v' -> Permutation l l' -> sameCt v v'.
  Proof.
    intros (Rv & Kv & Sv) (Rv' & Kv' & Sv') P.
    assert (K : forall x, In x (keys v) <-> In x (keys v')).
    { intros x. rewrite Kv, Kv'. split; intros (i & I & J); exists i; (split; [|exact J]); [apply (Permutation_in _ P)|apply (Permutation_in _ (Permutation_sym P))]; exact I. }
    intros x. split; [apply K|]. destruct (in_dec string_dec x (keys v)) as [I|I].
    - pose proof (proj1 (K x) I) as I'. rewrite (mget_comp v x I), (mget_comp v' x I'). f_equal.
      destruct (wfct_comp pp _ _ _ _ (proj1 Rv) I) as (A & B & _). destruct (wfct_comp pp _ _ _ _ (proj1 Rv') I') as (A' & B' & _).
      assert (E : prows (comp v x) = prows (comp v' x)).
      { rewrite (list_tab (prows (comp v x)) (S level) R0 A), (list_tab (prows (comp v' x)) (S level) R0 A'). apply tab_ext. intros j Hj.
        change (row (prows (comp v x)) j = row (prows (comp v' x)) j). rewrite (Sv x j I), (Sv' x j I') by lia. f_equal. apply Lsum_perm. exact P. }
      destruct (comp v x) as [ra fa]. destruct (comp v' x) as [rb fb]. cbn [prows pntt] in *. congruence.
    - assert (I' : ~ In x (keys v')) by (rewrite <- (K x); exact I).
      destruct (mget seq_dec v x) eqn:E; [exfalso; apply I; apply (mget_In_keys seq_dec); congruence|]. destruct (mget seq_dec v' x) eqn:E'; [exfalso; apply I'; apply (mget_In_keys seq_dec); congruence|]. reflexivity.
  Qed.

  (** AddNew of equal scales, row by row *)
  Lemma AddNew_rows (o : order) st (c0 c1 : ckct N) l0 l1 : order_ok o -> pool_ok pp st -> (l0 < length (Qm pp))%nat -> (l1 < length (Qm pp))%nat ->
    wfct pp l0 false (cv c0) -> wfct pp l1 false (cv c1) -> csc c0 = csc c1 -> let level := Nat.min l0 l1 in
    exists st' v, AddNew pp o st c0 c1 = Ok (st', CK v (csc c0)) /\ pool_ok pp st' /\ wfct pp level false v /\
      (forall x, In x (keys v) <-> In x (keys (cv c0)) \/ In x (keys (cv c1))) /\
      forall x j, In x (keys v) -> (j <= level)%nat -> row (prows (comp v x)) j =
        if in_dec string_dec x (keys (cv c0)) then if in_dec string_dec x (keys (cv c1)) then r_add (Qi pp j) (row (prows (comp (cv c0) x)) j) (row (prows (comp (cv c1) x)) j)
          else row (prows (comp (cv c0) x)) j else row (prows (comp (cv c1) x)) j.
  Proof.
    intros O PO H0 H1 W0 W1 SE level.
    destruct (C18_add N pp o st c0 c1 l0 l1 WF O PO H0 H1 W0 W1 SE) as (st' & v & A & B & C & D & _). exists st', v. split; [exact A|]. split; [exact B|]. split; [exact C|]. split; [exact D|].
    unfold AddNew in A. destruct (newBinary_ok pp WF o c0 c1 l0 l1 O H0 H1 (wfct_shape pp _ _ W0) (wfct_shape pp _ _ W1)) as (u & NU & WU & KU). rewrite NU in A. cbn [rbind] in A.
    assert (LM : maxLevel pp = (length (Qm pp) - 1)%nat) by reflexivity.
    pose proof (evaluateInPlace_ok pp o st c0 c1 (CK u (f_max (csc c0) (csc c1))) r_add l0 l1 O PO ltac:(lia) ltac:(lia) (wfct_shape pp _ _ W0) (wfct_shape pp _ _ W1) (wfct_shape pp _ _ WU) KU) as X.
    cbn zeta in X. rewrite align_none in X by (rewrite SE; apply f_lt_irrefl). destruct X as (st2 & v2 & X1 & X2 & X3 & X4 & X5). rewrite X1 in A.
    assert (EV : v2 = v) by congruence. subst v2. intros x j I Hj. rewrite (X5 x I). cbn [prows]. rewrite row_tab by lia. unfold binrow, opnd.
    destruct (string_dec x id0) as [->|n]; [|reflexivity].
    destruct (in_dec string_dec id0 (keys (cv c0))) as [_|J]; [|exfalso; apply J; apply W0]. destruct (in_dec string_dec id0 (keys (cv c1))) as [_|J]; [reflexivity|exfalso; apply J; apply W1].
  Qed.

  Lemma minimum_app f la lb m n : minimum f la m -> minimum f lb n -> minimum f (la ++ lb) (Nat.min m n).
  Proof using.
    intros ((i & Ii & Ei) & A) ((k & Ik & Ek) & B). split.
    - destruct (Nat.le_gt_cases m n) as [H|H].
      + exists i. split; [apply in_or_app; tauto|]. lia.
      + exists k. split; [apply in_or_app; tauto|]. lia.
    - intros y Hy. apply in_app_or in Hy as [Hy|Hy]; [specialize (A y Hy)|specialize (B y Hy)]; lia.
  Qed.
  Lemma minimum_perm f l l' m m' : Permutation l l' -> minimum f l m -> minimum f l' m' -> m = m'.
  Proof using.
    intros P ((i & Ii & Ei) & A) ((k & Ik & Ek) & B). apply Nat.le_antisymm.
    - rewrite <- Ek. apply A. apply (Permutation_in _ (Permutation_sym P)). exact Ik.
    - rewrite <- Ei. apply B. apply (Permutation_in _ P). exact Ii.
  Qed.

  Lemma sum_ok (c : nat -> ckct N) (lv : nat -> nat) sc t : forall st, pool_ok pp st -> orders_ok t ->
    (forall i, In i (leaves t) -> (lv i < length (Qm pp))%nat /\ reduced pp (lv i) (cv (c i)) /\ csc (c i) = sc) ->
    exists st' v level, sumTree pp st c t = Ok (st', CK v sc) /\ pool_ok pp st' /\ minimum lv (leaves t) level /\ (level < length (Qm pp))%nat /\ isSum level (fun i => cv (c i)) (leaves t) v.
  Proof.
    induction t as [i|o a IHa b IHb]; intros st PO OO H; cbn [sumTree leaves] in *.
    - destruct (H i (or_introl eq_refl)) as (H1 & H2 & H3). exists st, (cv (c i)), (lv i). split; [destruct (c i) as [vi si]; cbn [cv csc] in *; subst; reflexivity|]. split; [exact PO|].
      split; [split; [exists i; split; [left; reflexivity|reflexivity]|intros k [->|[]]; lia]|]. split; [exact H1|]. apply (isSum_leaf (lv i) (fun k => cv (c k)) i H1 H2).
    - destruct OO as (O & Oa & Ob).
      destruct (IHa st PO Oa) as (st1 & u & l0 & A1 & A2 & A3 & A4 & A5); [intros i Hi; apply H; apply in_or_app; tauto|].
      destruct (IHb st1 A2 Ob) as (st2 & w & l1 & B1 & B2 & B3 & B4 & B5); [intros i Hi; apply H; apply in_or_app; tauto|].
      rewrite A1. cbn [rbind]. rewrite B1. cbn [rbind].
      destruct (AddNew_rows o st2 (CK u sc) (CK w sc) l0 l1 O B2 A4 B4 (proj1 (proj1 A5)) (proj1 (proj1 B5)) eq_refl) as (st3 & v & C1 & C2 & C3 & C4 & C5). cbn [cv csc] in *.
      exists st3, v, (Nat.min l0 l1). split; [exact C1|]. split; [exact C2|]. split; [apply minimum_app; assumption|]. split; [lia|].
      apply (isSum_plus (fun i => cv (c i)) (leaves a) (leaves b) l0 l1 u w v ltac:(lia) A5 B5 C3 C4 C5).
  Qed.

  Lemma bsum_ok (c : nat -> ct) t : orders_ok t -> (forall i, In i (leaves t) -> reduced pp (maxLevel pp) (c i)) ->
    exists v, bSumTree pp c t = Ok v /\ isSum (maxLevel pp) c (leaves t) v.
  Proof.
    pose proof (L_lt pp WF) as LL. induction t as [i|o a IHa b IHb]; intros OO H; cbn [bSumTree leaves] in *.
    - exists (c i). split; [reflexivity|]. apply isSum_leaf; [exact LL|apply H; left; reflexivity].
    - destruct OO as (O & Oa & Ob).
      destruct (IHa Oa) as (u & A1 & A2); [intros i Hi; apply H; apply in_or_app; tauto|]. destruct (IHb Ob) as (w & B1 & B2); [intros i Hi; apply H; apply in_or_app; tauto|].
      rewrite A1. cbn [rbind]. rewrite B1. cbn [rbind]. pose proof (proj1 (proj1 A2)) as W0. pose proof (proj1 (proj1 B2)) as W1.
      unfold bAddNew. destruct (bNewBinary_ok pp WF o u w O (proj1 (proj2 W0))) as (out & NB & WO & KO). rewrite NB. cbn [rbind].
      destruct (bEval_ok pp WF o u w out r_add O) as (v & C1 & C2 & C3 & C4); trivial.
      { intros m p q X Y Z. apply r_add_ok; assumption. }
      { intros x. rewrite KO. destruct (string_dec x id0) as [->|n]; [|tauto]. split; [intros _; left|intros _; left]; apply W0. }
      exists v. split; [exact C1|]. replace (maxLevel pp) with (Nat.min (maxLevel pp) (maxLevel pp)) by lia.
      apply (isSum_plus c (leaves a) (leaves b) (maxLevel pp) (maxLevel pp) u w v); rewrite ?Nat.min_id; trivial.
      intros x j I Hj. rewrite (C4 x j I Hj). unfold brow. destruct (string_dec x id0) as [->|n]; [|reflexivity].
      destruct (in_dec string_dec id0 (keys u)) as [_|J]; [|exfalso; apply J; apply W0]. destruct (in_dec string_dec id0 (keys w)) as [_|J]; [reflexivity|exfalso; apply J; apply W1].
  Qed.
End Sum.

(** the value of every sum: for every x among the identities of its ciphertexts, and every Q_j up to the least level, the polynomial of x is the reduced sum of their polynomials of x
    (a ciphertext without identity x contributes nothing) *)
Theorem C72_sum : forall N pp (c : nat -> ckct N) (lv : nat -> nat) sc t st, wfp N pp -> pool_ok pp st -> orders_ok t ->
  (forall i, In i (leaves t) -> (lv i < length (Qm pp))%nat /\ reduced pp (lv i) (cv (c i)) /\ csc (c i) = sc) ->
  exists st' v level, sumTree pp st c t = Ok (st', CK v sc) /\ pool_ok pp st' /\ minimum lv (leaves t) level /\ reduced pp level v /\
    (forall x, In x (keys v) <-> exists i, In i (leaves t) /\ In x (keys (cv (c i)))) /\
    forall x j, In x (keys v) -> (j <= level)%nat -> row (prows (comp v x)) j = redm (mq (Qi pp j)) (Lsum (leaves t) (fun i => row (prows (comp (cv (c i)) x)) j)).
Proof.
  intros N pp c lv sc t st WF PO OO H. destruct (sum_ok pp WF c lv sc t st PO OO H) as (st' & v & level & A & B & C & D & E). destruct E as (E1 & E2 & E3).
  exists st', v, level. repeat (split; [assumption|]). exact E3.
Qed.
Print Assumptions C72_sum.
(** any two ways to add the same ciphertexts give the same ciphertext *)
Theorem C72_any_order : forall N pp (c : nat -> ckct N) (lv : nat -> nat) sc t t' st st', wfp N pp -> pool_ok pp st -> pool_ok pp st' -> orders_ok t -> orders_ok t' ->
  (forall i, In i (leaves t) -> (lv i < length (Qm pp))%nat /\ reduced pp (lv i) (cv (c i)) /\ csc (c i) = sc) -> Permutation (leaves t) (leaves t') ->
  exists su v su' v', sumTree pp st c t = Ok (su, CK v sc) /\ sumTree pp st' c t' = Ok (su', CK v' sc) /\ sameCt v v'.
Proof.
  intros N pp c lv sc t t' st st' WF PO PO' OO OO' H P.
  destruct (sum_ok pp WF c lv sc t st PO OO H) as (su & v & l & A & _ & C & _ & E).
  destruct (sum_ok pp WF c lv sc t' st' PO' OO') as (su' & v' & l' & A' & _ & C' & _ & E'); [intros i Hi; apply H; apply (Permutation_in _ (Permutation_sym P)); exact Hi|].
  pose proof (minimum_perm lv _ _ _ _ P C C') as EL. rewrite <- EL in E'.
  exists su, v, su', v'. split; [exact A|]. split; [exact A'|]. exact (isSum_unique pp l _ _ _ v v' E E' P).
Qed.
Print Assumptions C72_any_order.
(** mkbfv *)
Theorem C72_bfv : forall N pp (c : nat -> ctT N) t t', wfp N pp -> orders_ok t -> orders_ok t' -> (forall i, In i (leaves t) -> reduced pp (maxLevel pp) (c i)) -> Permutation (leaves t) (leaves t') ->
  exists v v', bSumTree pp c t = Ok v /\ bSumTree pp c t' = Ok v' /\ sameCt v v' /\ reduced pp (maxLevel pp) v /\
    (forall x, In x (keys v) <-> exists i, In i (leaves t) /\ In x (keys (c i))) /\
    forall x j, In x (keys v) -> (j <= maxLevel pp)%nat -> row (prows (comp v x)) j = redm (mq (Qi pp j)) (Lsum (leaves t) (fun i => row (prows (comp (c i) x)) j)).
Proof.
  intros N pp c t t' WF OO OO' H P. destruct (bsum_ok pp WF c t OO H) as (v & A & E). destruct (bsum_ok pp WF c t' OO') as (v' & A' & E'); [intros i Hi; apply H; apply (Permutation_in _ (Permutation_sym P)); exact Hi|].
  exists v, v'. split; [exact A|]. split; [exact A'|]. split; [exact (isSum_unique pp _ c _ _ v v' E E' P)|exact E].
Qed.
Print Assumptions C72_bfv.

(** ** What Encrypt returns in the coefficient domain is reduced, whatever the key, the plaintext and the samples *)
Lemma r_add_canon_l N (m : modulus) (a b : R N) : okq (mq m) -> canon m a -> inr m b -> canon m (r_add m a b).
Proof.
  intros K A B. replace (r_add m a b) with (r_add m b a); [apply r_add_canon; assumption|]. unfold r_add. apply R_ext. intros i Hi. rewrite !co_mkR by exact Hi. f_equal. f_equal. ring.
Qed.
Theorem C72_fresh_reduced : forall N pp B (e0 e1 : R N) (pt : poly N) (pk : publicKey N) (ct : ctT N) su se0 se1, wfp N pp -> is_sample pp B e0 se0 -> is_sample pp B e1 se1 ->
  wfplain pp pt -> wfplain pp (comp ct id0) -> pntt (comp ct id0) = false -> mwf ct -> pk_id pk <> id0 -> (forall x, In x (keys ct) <-> x = id0 \/ x = pk_id pk) ->
  exists ct', Encrypt pp pt pk ct su se0 se1 = Ok ct' /\ reduced pp (Nat.min (plevel pt) (plevel (comp ct id0))) ct'.
Proof.
  intros N pp B e0 e1 pt pk ct su se0 se1 WF S0 S1 WP W0 F W NI KC.
  destruct (Encrypt_eq pp pt pk ct su se0 se1 NI ltac:(apply KC; left; reflexivity) ltac:(apply KC; right; reflexivity) W) as (c' & E & Wc & G). exists c'. split; [exact E|].
  set (lv := Nat.min (plevel pt) (plevel (comp ct id0))) in *. rewrite F in G. set (uM := lvlQ1 pp lv r_mform (lvlQ1 pp lv ntt su)) in *.
  assert (HL : (lv < length (Qm pp))%nat) by (unfold lv, plevel; destruct WP as [WP _]; lia).
  assert (LP : forall j, (j <= lv)%nat -> (j < length (prows pt))%nat) by (intros j Hj; unfold lv, plevel in Hj; destruct WP as [WP _]; lia).
  assert (K : forall x p, mget seq_dec c' x = Some p -> length (prows p) = S lv /\ pntt p = false /\ forall j, (j <= lv)%nat -> canon (Qi pp j) (row (prows p) j)).
  { assert (SM : forall (e : R N) se j, is_sample pp B e se -> (j <= lv)%nat -> inr (Qi pp j) (row se j)) by (intros e se j [_ X] Hj; apply X; unfold maxLevel; lia).
    assert (C1 : forall (pkr er : list (R N)) j, (j <= lv)%nat -> inr (Qi pp j) (row er j) -> canon (Qi pp j) (row (lvlQ2 pp lv r_add (lvlQ1 pp lv intt (lvlQ2 pp lv r_mont uM pkr)) er) j)).
    { intros pkr er j Hj I. assert (OK : okmod (N := N) (Qi pp j)) by (apply (okQ pp WF j); lia). rewrite row_lvlQ2, row_lvlQ1 by exact Hj. apply r_add_canon_l; [apply OK|apply intt_canon; exact OK|exact I]. }
    intros x p. rewrite G. destruct (string_dec x id0) as [->|n0].
    - intros H. assert (EP : p = Pol (enc0 pp lv uM (qpQ (pk0 pk)) se0 false (pntt pt) (prows pt)) false) by congruence. subst p. cbn [prows pntt]. unfold enc0. cbn zeta iota.
      split; [apply lvlQ2_len|]. split; [reflexivity|]. intros j Hj. rewrite row_lvlQ2 by exact Hj. assert (OK : okmod (N := N) (Qi pp j)) by (apply (okQ pp WF j); lia).
      apply r_add_canon_l; [apply OK|apply C1; [exact Hj|apply (SM e0); assumption]|]. destruct (pntt pt); cbn [negb].
      + rewrite row_lvlQ1 by exact Hj. apply canon_inr. apply intt_canon. exact OK.
      + apply WP. apply LP. exact Hj.
    - destruct (string_dec x (pk_id pk)) as [->|n1].
      + intros H. assert (EP : p = Pol (enc1 pp lv uM (qpQ (pk1 pk)) se1 false) false) by congruence. subst p. cbn [prows pntt]. unfold enc1. cbn zeta iota.
        split; [apply lvlQ2_len|]. split; [reflexivity|]. intros j Hj. apply C1; [exact Hj|apply (SM e1); assumption].
      + intros H. exfalso. assert (I : In x (keys ct)) by (apply (mget_In_keys seq_dec); congruence). apply KC in I. tauto. }
  split.
  - split; [exact Wc|]. split; [apply (mget_In_keys seq_dec); rewrite G; destruct (string_dec id0 id0); congruence|]. intros x p H. destruct (K x p H) as (K1 & K2 & K3).
    split; [exact K1|]. split; [exact K2|]. intros j Hj. apply canon_inr. apply K3. exact Hj.
  - intros x j I Hj. destruct (mget seq_dec c' x) as [p|] eqn:H; [|apply (mget_In_keys seq_dec) in I; congruence]. unfold comp. rewrite H. apply (K x p H). exact Hj.
Qed.
Print Assumptions C72_fresh_reduced.

(** ** Differences: SubNew negates the polynomials that only its second operand has, and lattigo's Neg maps 0 to the modulus.
    So differences are not reduced, and they do depend on the grouping: with z = 0, (c0 + z) - c1 differs from c0 - c1. *)
Section Sub.
  Context {N : nat} (pp : rparams) (WF : wfp N pp).
  Notation R := (R N). Notation ct := (ctT N).
  Notation order := IdSetModel.order.

  Lemma SubNew_rows (o : order) st (c0 c1 : ckct N) l0 l1 : order_ok o -> pool_ok pp st -> (l0 < length (Qm pp))%nat -> (l1 < length (Qm pp))%nat ->
    wfct pp l0 false (cv c0) -> wfct pp l1 false (cv c1) -> csc c0 = csc c1 -> let level := Nat.min l0 l1 in
    exists st' v, SubNew pp o st c0 c1 = Ok (st', CK v (csc c0)) /\ pool_ok pp st' /\ wfct pp level false v /\ (forall x, In x (keys v) <-> In x (keys (cv c0)) \/ In x (keys (cv c1))) /\
      forall x j, (j <= level)%nat -> In x (keys (cv c1)) -> row (prows (comp v x)) j =
        if in_dec string_dec x (keys (cv c0)) then r_sub (Qi pp j) (row (prows (comp (cv c0) x)) j) (row (prows (comp (cv c1) x)) j) else r_neg (Qi pp j) (row (prows (comp (cv c1) x)) j).
  Proof.
    intros O PO H0 H1 W0 W1 SE level.
    destruct (C18_sub N pp o st c0 c1 l0 l1 WF O PO H0 H1 W0 W1 SE) as (st' & w & A & B & C & D & _). exists st', w. split; [exact A|]. split; [exact B|]. split; [exact C|]. split; [exact D|].
    unfold SubNew in A. destruct (newBinary_ok pp WF o c0 c1 l0 l1 O H0 H1 (wfct_shape pp _ _ W0) (wfct_shape pp _ _ W1)) as (u & NU & WU & KU). rewrite NU in A. cbn [rbind] in A.
    assert (LM : maxLevel pp = (length (Qm pp) - 1)%nat) by reflexivity.
    pose proof (evaluateInPlace_ok pp o st c0 c1 (CK u (f_max (csc c0) (csc c1))) r_sub l0 l1 O PO ltac:(lia) ltac:(lia) (wfct_shape pp _ _ W0) (wfct_shape pp _ _ W1) (wfct_shape pp _ _ WU) KU) as X.
    cbn zeta in X. rewrite align_none in X by (rewrite SE; apply f_lt_irrefl). destruct X as (st2 & v & X1 & X2 & X3 & X4 & X5). rewrite X1 in A. cbn [rbind] in A.
    assert (WV : wfct pp level false v).
    { split; [exact X3|]. split; [apply X4; left; apply W0|]. intros x p Hp.
      assert (I : In x (keys v)) by (apply (mget_In_keys seq_dec); congruence). rewrite (mget_comp v x I) in Hp. injection Hp as <-. rewrite X5 by assumption.
      apply wfpoly_tab. intros j Hj. apply (binrow_ok pp WF r_sub 1 1 None None (cv c0) (cv c1) l0 l1 x j sub H0 H1 W0 W1 (opnd_none_ok pp _ _) (opnd_none_ok pp _ _) Hj (proj1 (X4 x) I) (@r_sub_ok N) (@eqm_sub N)). }
    cbn [cv csc] in A. rewrite (wfct_level pp _ _ _ W0), (wfct_level pp _ _ _ W1), (wfct_level pp _ _ _ WV) in A. cbn [rbind] in A. fold level in A. rewrite Nat.min_id in A.
    destruct (IDSetOf_ok (o 30%nat) (cv c0)) as (ids0 & A0 & M0 & B0); [intros l; apply O|].
    destruct (IDSetOf_ok (o 31%nat) v) as (idso & AO & MO & BO); [intros l; apply O|]. rewrite A0, AO in A. cbn [rbind] in A.
    assert (KI : forall x, In x (o 32%nat (keys idso)) <-> x <> id0 /\ In x (keys v)).
    { intros x. rewrite <- (BO x). unfold is_has. rewrite mhas_In. split; intros X; [apply (Permutation_in _ (O 32%nat _))|apply (Permutation_in _ (Permutation_sym (O 32%nat _)))]; exact X. }
    match type of A with context [rfold ?ff0 _ v] => set (ff := ff0) in A end.
    assert (FL : forall l w, rfold ff l w = rfold ff (filter (fun x => negb (is_has ids0 x)) l) w).
    { induction l as [|y l IH]; intros w'; [reflexivity|]. cbn [rfold filter]. destruct (is_has ids0 y) eqn:Hy; cbn [negb].
      - unfold ff at 1. rewrite Hy. cbn [negb rbind]. apply IH.
      - cbn [rfold]. destruct (ff w' y); cbn [rbind]; [apply IH|reflexivity]. }
    rewrite FL in A. destruct (loop1 ff (fun x p => Pol (lvlQ1 pp level r_neg (prows p)) (pntt p)) (filter (fun x => negb (is_has ids0 x)) (o 32%nat (keys idso))) v) as (w2 & V1 & V2 & V3 & V4).
    - apply NoDup_filter. apply (Permutation_NoDup (Permutation_sym (O 32%nat _))). exact MO.
    - exact X3.
    - intros x Hx. apply filter_In in Hx as [Hx _]. apply KI in Hx. tauto.
    - intros c id Hid W K E. apply filter_In in Hid as [Hid Hn]. apply KI in Hid as [Nid Kid]. unfold ff. rewrite Hn.
      rewrite cget_comp by (apply K; assumption). cbn [rbind]. rewrite E. rewrite wrLvl_full; [reflexivity|apply (wfct_comp pp _ _ _ _ WV Kid)|apply lvlQ1_len].
    - rewrite V1 in A. cbn [rbind] in A. assert (EW : w2 = w) by congruence. subst w2. intros x j Hj I1.
      assert (Iv : In x (keys v)) by (apply X4; right; exact I1). rewrite V4.
      assert (RV : row (prows (comp v x)) j = binrow pp r_sub None None (cv c0) (cv c1) x j) by (rewrite (X5 x Iv); cbn [prows]; rewrite row_tab by lia; reflexivity).
      unfold binrow, opnd in RV.
      destruct (in_dec string_dec x (filter (fun x => negb (is_has ids0 x)) (o 32%nat (keys idso)))) as [J|J].
      + apply filter_In in J as [J1 J2]. apply KI in J1 as [Nx _]. cbn [prows]. unfold lvlQ1. rewrite row_tab by lia. rewrite RV. destruct (string_dec x id0); [contradiction|].
        destruct (in_dec string_dec x (keys (cv c0))) as [Y|Y]; [|reflexivity]. assert (Z : is_has ids0 x = true) by (apply B0; tauto). rewrite Z in J2. discriminate.
      + rewrite RV. destruct (string_dec x id0) as [->|n].
        * destruct (in_dec string_dec id0 (keys (cv c0))) as [_|Y]; [reflexivity|exfalso; apply Y; apply W0].
        * destruct (in_dec string_dec x (keys (cv c0))) as [Y|Y]; [destruct (in_dec string_dec x (keys (cv c1))); [reflexivity|contradiction]|].
          exfalso. apply J. apply filter_In. split; [apply KI; tauto|]. destruct (is_has ids0 x) eqn:Z; [apply B0 in Z; tauto|reflexivity].
  Qed.
  Lemma neg_zero m (a : R) i : okq (mq m) -> (i < N)%nat -> co a i = 0 -> co (r_neg m a) i = mq m.
  Proof using. clear. intros [P K] Hi E. unfold r_neg. rewrite co_mkR by exact Hi. rewrite E, Z.sub_0_r. apply Z.mod_small. unfold W. lia. Qed.
  Lemma sub_zero m (a b : R) i : okq (mq m) -> (i < N)%nat -> co a i = 0 -> co b i = 0 -> co (r_sub m a b) i = 0.
  Proof using. clear. intros [P K] Hi E F. unfold r_sub. rewrite co_mkR by exact Hi. rewrite E, F. replace (0 + mq m - 0) with (mq m) by ring. unfold w64. rewrite Z.mod_small by (unfold W; lia). unfold cred. destruct (Z.leb_spec (mq m) (mq m)); lia. Qed.
End Sub.

Theorem C72_difference_refuted : forall N pp (o o' o'' : IdSetModel.order) st (c0 c1 z : ckct N) l x i, wfp N pp -> order_ok o -> order_ok o' -> order_ok o'' -> pool_ok pp st ->
  (l < length (Qm pp))%nat -> reduced pp l (cv c0) -> reduced pp l (cv c1) -> reduced pp l (cv z) -> csc c0 = csc c1 -> csc z = csc c0 ->
  (forall y j, (j <= l)%nat -> row (prows (comp (cv z) y)) j = R0) ->
  (* z has no other identities than c1; x is a party of c1 and z, but not of c0, one of whose coefficients in c1 is 0 *)
  incl (keys (cv z)) (keys (cv c1)) -> In x (keys (cv z)) -> ~ In x (keys (cv c0)) -> (i < N)%nat -> (forall j, (j <= l)%nat -> co (row (prows (comp (cv c1) x)) j) i = 0) ->
  exists s1 d s2 a s3 d', SubNew pp o st c0 c1 = Ok (s1, CK d (csc c0)) /\ AddNew pp o' st c0 z = Ok (s2, CK a (csc c0)) /\ SubNew pp o'' s2 (CK a (csc c0)) c1 = Ok (s3, CK d' (csc c0)) /\
    (forall y, In y (keys d) <-> In y (keys d')) /\
    (forall j, (j <= l)%nat -> co (row (prows (comp d x)) j) i = mq (Qi pp j) /\ co (row (prows (comp d' x)) j) i = 0) /\ ~ reduced pp l d /\ ~ sameCt d d'.
Proof.
  intros N pp o o' o'' st c0 c1 z l x i WF O O' O'' PO HL R0c R1c Rz S1 Sz ZZ Ic Iz I0 Hi Z1. pose proof (Ic x Iz) as I1.
  destruct (SubNew_rows pp WF o st c0 c1 l l O PO HL HL (proj1 R0c) (proj1 R1c) S1) as (s1 & d & A1 & A2 & A3 & A4 & A5).
  destruct (AddNew_rows pp WF o' st c0 z l l O' PO HL HL (proj1 R0c) (proj1 Rz) (eq_sym Sz)) as (s2 & a & B1 & B2 & B3 & B4 & B5).
  rewrite Nat.min_id in *.
  destruct (SubNew_rows pp WF o'' s2 (CK a (csc c0)) c1 l l O'' B2 HL HL B3 (proj1 R1c) S1) as (s3 & d' & C1 & C2 & C3 & C4 & C5).
  rewrite Nat.min_id in *. cbn [cv csc] in *.
  assert (Ia : In x (keys a)) by (apply B4; right; exact Iz).
  assert (OKj : forall j, (j <= l)%nat -> okq (mq (Qi pp j))) by (intros j Hj; apply (okQ pp WF j); lia).
  assert (V : forall j, (j <= l)%nat -> co (row (prows (comp d x)) j) i = mq (Qi pp j) /\ co (row (prows (comp d' x)) j) i = 0).
  { intros j Hj. rewrite (A5 x j Hj I1), (C5 x j Hj I1). destruct (in_dec string_dec x (keys (cv c0))) as [J|_]; [contradiction|]. destruct (in_dec string_dec x (keys a)) as [_|J]; [|contradiction].
    split; [apply neg_zero; [apply OKj; exact Hj|exact Hi|apply Z1; exact Hj]|]. apply sub_zero; [apply OKj; exact Hj|exact Hi| |apply Z1; exact Hj].
    rewrite (B5 x j Ia Hj). destruct (in_dec string_dec x (keys (cv c0))) as [J|_]; [contradiction|]. rewrite ZZ by exact Hj. apply co_R0. }
  exists s1, d, s2, a, s3, d'. split; [exact A1|]. split; [exact B1|]. split; [exact C1|]. split.
  { intros y. rewrite A4, C4, B4. specialize (Ic y). tauto. }
  split; [exact V|]. split.
  - intros [_ Cd]. pose proof (Cd x 0%nat ltac:(apply A4; right; exact I1) ltac:(lia) i Hi) as X. rewrite (proj1 (V 0%nat ltac:(lia))) in X. lia.
  - intros S. pose proof (proj2 (S x)) as E. assert (EC : comp d x = comp d' x) by (unfold comp; rewrite E; reflexivity).
    destruct (V 0%nat ltac:(lia)) as [P Q]. rewrite EC, Q in P. pose proof (okq_lt _ (OKj 0%nat ltac:(lia))). lia.
Qed.
Print Assumptions C72_difference_refuted.

(** ** A concrete case: parties alice and bob, levels 2 and 1, five additions in two orders; and c0 - c1 where bob occurs in c1 only *)
Definition ext_c (i : nat) : ckct 8 := match i with 0%nat => CK (ex_ct 3 ["alice"]%string) sc1 | 1%nat => CK (ex_ct 2 ["alice"; "bob"]%string) sc1 | _ => CK (ex_ct 3 ["alice"; "bob"]%string) sc1 end.
Definition ext_lv (i : nat) : nat := match i with 1%nat => 1%nat | _ => 2%nat end.
Definition ext_t (o : IdSetModel.order) : sum_tree := Plus o (Plus o (Leaf 0) (Leaf 1)) (Plus o (Leaf 2) (Leaf 0)).
Definition ext_t' (o : IdSetModel.order) : sum_tree := Plus o (Leaf 0) (Plus o (Leaf 0) (Plus o (Leaf 1) (Leaf 2))).
Definition ext_z : ckct 8 := CK (map (fun id => (id, Pol (tab 3 (fun _ => @R0 8)) false)) [id0; "alice"; "bob"]%string) sc1.

Lemma ex_ct_row n l x j : (0 < n <= 3)%nat -> (j < n)%nat -> In x (id0 :: l) -> row (prows (comp (ex_ct n l) x)) j = redm (mq (Qi ex_pp j)) (ex_poly [30; -41; 7; 0; 0; 12; 1; -5]).
Proof.
  intros Hn Hj I. assert (E : comp (ex_ct n l) x = Pol (firstn n (prows (ex_pt false))) false).
  { unfold comp, ex_ct. revert I. generalize (id0 :: l) as l'. induction l' as [|y l' IH]; [intros []|]. cbn [map mget]. intros I. destruct (seq_dec x y) as [e|ne]; [reflexivity|]. apply IH. destruct I as [<-|I]; [congruence|exact I]. }
  rewrite E. cbn [prows]. unfold row. rewrite nth_firstn by lia. cbn [ex_pt prows]. unfold rows_of. change (row (tab (length (Qm ex_pp)) (fun j => redm (mq (Qi ex_pp j)) (ex_poly [30; -41; 7; 0; 0; 12; 1; -5]))) j = redm (mq (Qi ex_pp j)) (ex_poly [30; -41; 7; 0; 0; 12; 1; -5])).
  rewrite (row_tab (length (Qm ex_pp)) (fun j => redm (mq (Qi ex_pp j)) (ex_poly [30; -41; 7; 0; 0; 12; 1; -5])) j) by (cbn; lia). reflexivity.
Qed.
Lemma ex_ct_reduced n l : (0 < n <= 3)%nat -> NoDup (id0 :: l) -> reduced ex_pp (n - 1) (ex_ct n l).
Proof.
  intros Hn ND. split; [apply ex_ct_wf; assumption|]. intros x j I Hj. rewrite ex_ct_row; [|exact Hn|lia|].
  - apply redm_canon. apply (okQ ex_pp ex_wf j). cbn. lia.
  - revert I. unfold ex_ct, keys. rewrite map_map. cbn [fst]. rewrite map_id. exact (fun H => H).
Qed.
Lemma ext_z_zero x j : row (prows (comp (cv ext_z) x)) j = R0.
Proof.
  assert (E : comp (cv ext_z) x = Pol (tab 3 (fun _ => @R0 8)) false \/ comp (cv ext_z) x = comp nil x).
  { unfold comp, ext_z. cbn [cv]. generalize [id0; "alice"; "bob"]%string as l'. induction l' as [|y l' IH]; [right; reflexivity|]. cbn [map mget]. destruct (seq_dec x y); [left; reflexivity|exact IH]. }
  destruct E as [->| ->]; [|apply row_none; intros []]. cbn [prows]. unfold row. destruct j as [|[|[|[|]]]]; reflexivity.
Qed.
Theorem C72_nonvacuous : let st := (NewEvaluator ex_pp : evalst 8) in
  wfp 8 ex_pp /\ pool_ok ex_pp st /\ orders_ok (ext_t ex_ord) /\ orders_ok (ext_t' ex_ord) /\ Permutation (leaves (ext_t ex_ord)) (leaves (ext_t' ex_ord)) /\ ~ (leaves (ext_t ex_ord) = leaves (ext_t' ex_ord)) /\
  (forall i, In i (leaves (ext_t ex_ord)) -> (ext_lv i < length (Qm ex_pp))%nat /\ reduced ex_pp (ext_lv i) (cv (ext_c i)) /\ csc (ext_c i) = sc1) /\
  (forall i, In i [0; 2]%nat -> reduced ex_pp (maxLevel ex_pp) (cv (ext_c i))) /\
  (exists s d s' a s'' d', SubNew ex_pp ex_ord st (ext_c 0) (ext_c 2) = Ok (s, CK d sc1) /\ AddNew ex_pp ex_ord st (ext_c 0) ext_z = Ok (s', CK a sc1) /\ SubNew ex_pp ex_ord s' (CK a sc1) (ext_c 2) = Ok (s'', CK d' sc1) /\
  ~ reduced ex_pp 2 d /\ ~ sameCt d d').
Proof.
  cbv zeta. assert (RA : reduced ex_pp 2 (cv (ext_c 0))) by (apply (ex_ct_reduced 3 ["alice"%string]); [lia|exact ex_nd1]).
  assert (RB : reduced ex_pp 2 (cv (ext_c 2))) by (apply (ex_ct_reduced 3 ["alice"; "bob"]%string); [lia|exact ex_nd2]).
  assert (RC : reduced ex_pp 1 (cv (ext_c 1))) by (apply (ex_ct_reduced 2 ["alice"; "bob"]%string); [lia|exact ex_nd2]).
  assert (LQ : length (Qm ex_pp) = 3%nat) by reflexivity. assert (LM : maxLevel ex_pp = 2%nat) by reflexivity.
  split; [exact ex_wf|]. split; [exact ex_pool|]. split; [cbn [orders_ok ext_t]; repeat split; try exact ex_ord_ok|]. split; [cbn [orders_ok ext_t']; repeat split; try exact ex_ord_ok|].
  split; [cbn [leaves ext_t ext_t' app]; apply perm_skip; apply (Permutation_app_comm [1; 2]%nat [0%nat])|].
  split; [intros H; cbn in H; congruence|]. split.
  { intros i. cbn [leaves ext_t app]. intros [<-|[<-|[<-|[<-|[]]]]]; cbn [ext_lv]; (split; [rewrite LQ; lia|]); (split; [assumption|reflexivity]). }
  split; [intros i [<-|[<-|[]]]; rewrite LM; assumption|].
  destruct (C72_difference_refuted 8 ex_pp ex_ord ex_ord ex_ord (NewEvaluator ex_pp) (ext_c 0) (ext_c 2) ext_z 2 "bob"%string 3%nat ex_wf ex_ord_ok ex_ord_ok ex_ord_ok ex_pool) as (s & d & s' & a & s'' & d' & P1 & P2 & P3 & _ & _ & P4 & P5).
  - rewrite LQ. lia.
  - exact RA.
  - exact RB.
  - split.
    + split; [unfold mwf, keys, ext_z; cbn [cv]; rewrite map_map; cbn [fst]; rewrite map_id; exact ex_nd2|]. split; [left; reflexivity|]. intros id p H.
      assert (E : p = Pol (tab 3 (fun _ => @R0 8)) false) by (revert H; unfold ext_z; cbn [cv]; generalize [id0; "alice"; "bob"]%string as l'; induction l' as [|y l' IH]; cbn [map mget]; [discriminate|destruct (seq_dec id y); [congruence|exact IH]]). subst p.
      apply (wfpoly_tab ex_pp 2). intros j Hj. apply canon_inr. apply canon_zero. apply (okQ ex_pp ex_wf j). rewrite LQ. lia.
    + intros x j I Hj. rewrite ext_z_zero. apply canon_zero. apply (okQ ex_pp ex_wf j). rewrite LQ. lia.
  - reflexivity.
  - reflexivity.
  - intros y j Hj. apply ext_z_zero.
  - intros y Hy. exact Hy.
  - right. right. left. reflexivity.
  - intros [H|[H|[]]]; discriminate.
  - lia.
  - intros j Hj. change (cv (ext_c 2)) with (ex_ct 3 ["alice"; "bob"]%string). rewrite (ex_ct_row 3 ["alice"; "bob"]%string "bob"%string j); [|lia|lia|right; right; left; reflexivity]. unfold redm. rewrite co_mkR by lia. reflexivity.
  - exists s, d, s', a, s'', d'. split; [exact P1|]. split; [exact P2|]. split; [exact P3|]. split; assumption.
Qed.
Print Assumptions C72_nonvacuous.
