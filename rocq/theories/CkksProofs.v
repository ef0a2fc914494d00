(** The CKKS evaluator: linear operations.  Components, sums of phases, MultByConst, AddNew, SubNew, DropLevel, MulPtxtNew. *)
From Flocq Require Import Core BinarySingleNaN.
From Coq Require Import Znumtheory Setoid Morphisms Reals Lra.
From Verif Require Import Base IdSetModel IdSetSpec IdSetProofs KeySetModel NumTheory Negacyclic Ntt Word BasisExt BasisExtProofs Rows RlweModel KeyGenModel SchemeSpec ExtProd ExtProps Galois KeyGenProofs CtModel CtSpec CtProofs EncDecProofs PropsEnc KeySwitchModel Digits KsLoops RotProofs FloatModel CkksFloat CkksModel FloatProofs CkksFloatProofs.
Open Scope Z_scope.

Definition fmt_ok (z : Z) : Prop := generic_format radix2 (SpecFloat.fexp 53 1024) (IZR z).
Lemma fmt_pow (e : Z) : 0 <= e <= 1000 -> fmt_ok (2 ^ e).
Proof.
  intros H. unfold fmt_ok. replace (IZR (2 ^ e)) with (F2R (Float radix2 1 e)); [apply fmt_F2R; lia|].
  unfold F2R. cbn [Fnum Fexp]. rewrite Rmult_1_l. change 2 with (radix_val radix2). rewrite IZR_Zpower by lia. reflexivity.
Qed.

Section Lin.
  Context {N : nat} (pp : rparams) (WF : wfp N pp).
  Notation R := (R N). Notation ct := (ctT N).
  Notation phase := (@phase N pp). Notation pvalue := (@pvalue N pp). Notation wfct := (@wfct N pp). Notation wfpoly := (@wfpoly N pp).
  Add Ring R_ring22 : (@R_ring_theory N).
  Notation order := IdSetModel.order.

  (** *** the phase of a combination *)
  Lemma comp_none (c : ct) x : ~ In x (keys c) -> comp c x = Pol nil false.
  Proof. intros H. unfold comp. apply (mget_None seq_dec) in H. rewrite H. reflexivity. Qed.
  Lemma pvalue_none (c : ct) x j : ~ In x (keys c) -> pvalue (comp c x) j = R0.
  Proof. intros H. rewrite comp_none by assumption. unfold CtSpec.pvalue, row. cbn. destruct j; reflexivity. Qed.
  Lemma phase_super s (c : ct) j l : mwf c -> NoDup l -> ~ In id0 l -> incl (parties c) l ->
    phase s c j = add (pvalue (comp c id0) j) (Lsum l (fun id => mul (pvalue (comp c id) j) (s id))).
  Proof.
    intros W ND N0 I. unfold CtSpec.phase. f_equal.
    assert (P : Permutation l (parties c ++ filter (fun x => if in_dec string_dec x (parties c) then false else true) l)).
    { apply NoDup_Permutation; [assumption| |].
      - apply nodup_app; [apply parties_nodup; assumption|apply NoDup_filter; assumption|].
        intros x Hx Hf. apply filter_In in Hf as [_ Hf]. destruct (in_dec string_dec x (parties c)); [discriminate|contradiction].
      - intros x. rewrite in_app_iff, filter_In. destruct (in_dec string_dec x (parties c)) as [J|J]; [specialize (I x J); tauto|intuition congruence]. }
    rewrite (Lsum_perm l _ _ P), Lsum_app. rewrite (Lsum_zero (filter _ _)); [symmetry; apply add_0_r|].
    intros x Hx. apply filter_In in Hx as [Hl Hx]. destruct (in_dec string_dec x (parties c)) as [|n]; [discriminate|].
    rewrite pvalue_none; [apply mul_0_l|]. intros K. apply n. apply in_parties. split; [congruence|assumption].
  Qed.
  Lemma phase_comb s (c0 c1 out : ct) j q (z0 z1 : R) : mwf c0 -> mwf c1 -> mwf out -> incl (keys c0) (keys out) -> incl (keys c1) (keys out) ->
    (forall x, In x (keys out) \/ x = id0 -> eqm q (pvalue (comp out x) j) (add (mul z0 (pvalue (comp c0 x) j)) (mul z1 (pvalue (comp c1 x) j)))) ->
    eqm q (phase s out j) (add (mul z0 (phase s c0 j)) (mul z1 (phase s c1 j))).
  Proof.
    intros W0 W1 W I0 I1 H.
    assert (SP : forall c : ct, incl (keys c) (keys out) -> incl (parties c) (parties out)).
    { intros c I x Hx. apply in_parties in Hx. apply in_parties. split; [tauto|apply I; tauto]. }
    assert (N0 : ~ In id0 (parties out)) by (rewrite in_parties; tauto).
    pose proof (parties_nodup out W) as ND.
    rewrite (phase_super s c0 j (parties out)), (phase_super s c1 j (parties out)) by (trivial; apply SP; assumption). unfold CtSpec.phase.
    eapply eqm_trans; [apply eqm_add; [apply H; right; reflexivity|apply Lsum_eqm; intros x Hx; apply eqm_mul; [apply H; left; apply in_parties in Hx; tauto|apply eqm_refl]]|].
    apply eqm_eq. rewrite (Lsum_ext (parties out) _ (fun id => add (mul z0 (mul (pvalue (comp c0 id) j) (s id))) (mul z1 (mul (pvalue (comp c1 id) j) (s id))))) by (intros; ring).
    rewrite Lsum_add, !Lsum_mul_l. ring.
  Qed.
  Lemma phase_scale s (c out : ct) j q (z : R) : mwf c -> mwf out -> incl (keys c) (keys out) ->
    (forall x, In x (keys out) \/ x = id0 -> eqm q (pvalue (comp out x) j) (mul z (pvalue (comp c x) j))) ->
    eqm q (phase s out j) (mul z (phase s c j)).
  Proof.
    intros W0 W I H. eapply eqm_trans; [apply (phase_comb s c c out j q z R0); trivial|apply eqm_eq; ring].
    intros x Hx. eapply eqm_trans; [apply H; assumption|apply eqm_eq; ring].
  Qed.

  (** *** writing the first rows of a polynomial *)
  Lemma wrLvl_ok level (new old : list R) : (level < length old)%nat -> length new = S level ->
    wrLvl level new old = Ok (new ++ skipn (S level) old).
  Proof. intros H E. unfold wrLvl. destruct (Nat.leb_spec (length old) level); [lia|]. rewrite <- E, firstn_all. reflexivity. Qed.
  Lemma wrLvl_ok' level (new old : list R) : (level < length old)%nat -> wrLvl level new old = Ok (firstn (S level) new ++ skipn (S level) old).
  Proof. intros H. unfold wrLvl. destruct (Nat.leb_spec (length old) level); [lia|reflexivity]. Qed.
  Lemma wrLvl_full level (new old : list R) : length old = S level -> length new = S level -> wrLvl level new old = Ok new.
  Proof. intros H E. rewrite wrLvl_ok by lia. rewrite skipn_all2, app_nil_r by lia. reflexivity. Qed.
  Lemma row_app1 (a b : list R) j : (j < length a)%nat -> row (a ++ b) j = row a j.
  Proof. intros H. unfold row. apply app_nth1. assumption. Qed.
  Lemma cgetL_comp (c : ct) id level : In id (keys c) -> (level < length (prows (comp c id)))%nat -> cgetL c id level = Ok (comp c id).
  Proof. intros I L. unfold cgetL. rewrite cget_comp by assumption. cbn [rbind]. destruct (Nat.leb_spec (length (prows (comp c id))) level); [lia|reflexivity]. Qed.

  (** a ciphertext-shaped map: n rows each, coefficient domain, any values *)
  Definition shape n (c : ct) : Prop := mwf c /\ In id0 (keys c) /\ forall x, In x (keys c) -> length (prows (comp c x)) = n /\ pntt (comp c x) = false.
  Lemma wfct_shape level (c : ct) : wfct level false c -> shape (S level) c.
  Proof. intros H. split; [apply H|]. split; [apply H|]. intros x Hx. pose proof (wfct_comp pp _ _ _ _ H Hx) as (A & B & _). split; assumption. Qed.
  Lemma shape_level level (c : ct) : shape (S level) c -> ctLevel c = Ok level.
  Proof. intros (A & B & C). unfold ctLevel. rewrite cget_comp by assumption. cbn [rbind]. unfold plevel. rewrite (proj1 (C _ B)). f_equal. lia. Qed.

  (** *** MultByConst *)
  (** one constant for the whole row *)
  Definition hrow (cs : list (Z * Z)) (c : ct) x j : R := halves_row (Qi pp j) (nth j cs (0, 0)) (row (prows (comp c x)) j).
  Definition mbcConsts level (k : gconst) : res (list (Z * Z)) :=
    let '(cReal, cImag, scale) := getConstAndScale pp level k in rmapM (fun i => scaledConsts (N := N) (Qi pp i) cReal cImag scale) (seq 0 (S level)).
  Definition mbcScale level (k : gconst) : f64 := snd (getConstAndScale pp level k).

  Lemma MultByConst_ok o (c0 out : ckct N) k n0 no : ord1_ok o -> shape (S n0) (cv c0) -> shape (S no) (cv out) -> incl (keys (cv c0)) (keys (cv out)) ->
    let level := Nat.min n0 no in
    match mbcConsts level k with
    | Panic => MultByConst pp o c0 k out = Panic
    | Ok cs => exists v, MultByConst pp o c0 k out = Ok (CK v (f_mul (csc c0) (mbcScale level k))) /\ shape (S no) v /\
        (forall x, In x (keys v) <-> In x (keys (cv out))) /\
        (forall x, In x (keys (cv c0)) -> comp v x = Pol (tab (S level) (hrow cs (cv c0) x) ++ skipn (S level) (prows (comp (cv out) x))) false) /\
        (forall x, ~ In x (keys (cv c0)) -> comp v x = comp (cv out) x)
    end.
  Proof.
    intros O S0 SO I level. unfold mbcConsts, mbcScale, MultByConst. rewrite (shape_level _ _ S0), (shape_level _ _ SO). cbn [rbind]. fold level.
    destruct (getConstAndScale pp level k) as [[cR cI] sc]. cbn [snd].
    destruct (rmapM (fun i => scaledConsts (Qi pp i) cR cI sc) (seq 0 (S level))) as [cs|]; cbn [rbind]; [|reflexivity].
    destruct (loop1 (fun c id => p0 <- cgetL (cv c0) id level ;; p1 <- cget c id ;;
           rows <- wrLvl level (tab (S level) (fun i => halves_row (Qi pp i) (nth i cs (0, 0)) (row (prows p0) i))) (prows p1) ;;
           Ok (cset c id (Pol rows (pntt p1)))) (fun x p => Pol (tab (S level) (hrow cs (cv c0) x) ++ skipn (S level) (prows p)) false) (o (keys (cv c0))) (cv out)) as (v & A1 & A2 & A3 & A4).
    - apply (Permutation_NoDup (Permutation_sym (O _))). apply S0.
    - apply SO.
    - intros x Hx. apply I. apply (Permutation_in _ (O _)). assumption.
    - intros c id Hid W K E. apply (Permutation_in _ (O _)) in Hid. destruct (proj2 (proj2 S0) id Hid) as [L0 _].
      destruct (proj2 (proj2 SO) id (I id Hid)) as [LO FO].
      rewrite cgetL_comp by (trivial; lia). cbn [rbind]. rewrite cget_comp by (apply K; apply I; assumption). cbn [rbind]. rewrite E.
      rewrite wrLvl_ok by (rewrite ?tab_length; lia). cbn [rbind]. rewrite FO. reflexivity.
    - rewrite A1. cbn [rbind]. exists v. split; [reflexivity|].
      assert (C1 : forall x, In x (keys (cv c0)) -> comp v x = Pol (tab (S level) (hrow cs (cv c0) x) ++ skipn (S level) (prows (comp (cv out) x))) false).
      { intros x Hx. rewrite A4. destruct (in_dec string_dec x (o (keys (cv c0)))) as [|n]; [reflexivity|]. exfalso. apply n. apply (Permutation_in _ (Permutation_sym (O _))). assumption. }
      assert (C2 : forall x, ~ In x (keys (cv c0)) -> comp v x = comp (cv out) x).
      { intros x Hx. rewrite A4. destruct (in_dec string_dec x (o (keys (cv c0)))) as [n|]; [|reflexivity]. exfalso. apply Hx. apply (Permutation_in _ (O _)). assumption. }
      split; [|split; [exact A3|split; assumption]]. split; [exact A2|]. split; [apply A3; apply SO|].
      intros x Hx. apply A3 in Hx. destruct (proj2 (proj2 SO) x Hx) as [LO FO].
      destruct (in_dec string_dec x (keys (cv c0))) as [J|J]; [|rewrite C2 by assumption; split; assumption].
      rewrite C1 by assumption. cbn [prows pntt]. split; [|reflexivity]. rewrite app_length, tab_length, skipn_length, LO. lia.
  Qed.

  (** the constants of a real factor: the integer the rows are multiplied by *)
  Lemma halves_const m x (a : R) : okq (mq m) -> 0 <= x <= mq m -> inr m a ->
    let c := mform x (mq m) (bred_params (mq m)) in inr m (halves_row m (c, c) a) /\ eqm (mq m) (halves_row m (c, c) a) (smul x a).
  Proof.
    intros K Hx HA c. pose proof (okq_lt _ K) as QL. destruct (mform_mont x (mq m) K ltac:(lia)) as [M1 M2]. fold c in M1, M2.
    assert (E : forall i, (i < N)%nat -> 0 <= co (halves_row m (c, c) a) i < mq m /\ eqz (mq m) (co (halves_row m (c, c) a) i) (co a i * x)).
    { intros i Hi. unfold halves_row. rewrite co_mkR by assumption. replace (if (i <? N / 2)%nat then fst (c, c) else snd (c, c)) with c by (destruct (i <? N / 2)%nat; reflexivity).
      apply mred_mont; trivial. specialize (HA i Hi). lia. }
    split; [intros i Hi; specialize (E i Hi); lia|]. apply eqm_co. intros i Hi. rewrite co_smul. fold (eqz (mq m) (co (halves_row m (c, c) a) i) (x * co a i)).
    destruct (E i Hi) as [_ X]. rewrite X. apply eqz_eq. ring.
  Qed.

  (** *** evaluateInPlace *)
  (** the operands after the alignment of the scales: which one is multiplied, and by what constants *)
  Definition alignOf (s0 s1 : f64) l0 l1 : res (option (list (Z * Z)) * option (list (Z * Z))) :=
    let r10 := f_floor (f_div s1 s0) in
    let r01 := f_floor (f_div s0 s1) in
    if f_gt s1 s0 && f_gt r10 f_one then cs <- mbcConsts l0 (CFloat r10) ;; Ok (Some cs, None)
    else if f_gt s0 s1 && f_gt r01 f_one then cs <- mbcConsts l1 (CFloat r01) ;; Ok (None, Some cs)
    else Ok (None, None).
  Definition opnd (k : option (list (Z * Z))) (c : ct) x j : R := match k with None => row (prows (comp c x)) j | Some cs => hrow cs c x j end.
  Definition binrow (ev : modulus -> R -> R -> R) k0 k1 (c0 c1 : ct) x j : R :=
    if string_dec x id0 then ev (Qi pp j) (opnd k0 c0 x j) (opnd k1 c1 x j)
    else if in_dec string_dec x (keys c0) then if in_dec string_dec x (keys c1) then ev (Qi pp j) (opnd k0 c0 x j) (opnd k1 c1 x j) else opnd k0 c0 x j
    else opnd k1 c1 x j.
  (** the invariant of the evaluator's scratch space *)
  Definition pool_ok (st : evalst N) : Prop := shape (S (maxLevel pp)) (ctxtPool st) /\ length (polyQPool st) = S (maxLevel pp).

  Lemma pad_shape (o : order) n (c : ct) (ids : idset) : order_ok o -> shape (S n) c -> ~ In id0 (keys ids) ->
    exists c', PadCiphertext o c ids = Ok c' /\ shape (S n) c' /\ forall x, In x (keys c') <-> In x (keys c) \/ In x (keys ids).
  Proof.
    intros O (W & I0 & Sh) N0. unfold PadCiphertext. rewrite cget_comp by assumption. cbn [rbind].
    destruct (IDSetOf_ok (o 0%nat) c) as (old & A & _ & B); [intros l; apply O|]. rewrite A. cbn [rbind]. destruct (Sh _ I0) as [L0 F0].
    replace (plevel (comp c id0)) with n by (unfold plevel; lia). rewrite F0. eexists. split; [reflexivity|].
    set (z := Pol (tab (S n) (fun _ => @R0 N)) false).
    assert (G : forall l (d : ct), shape (S n) d -> ~ In id0 l ->
      let d' := fold_left (fun c id => if is_has old id then c else cset c id z) l d in
      shape (S n) d' /\ forall x, In x (keys d') <-> In x (keys d) \/ (In x l /\ is_has old x = false)).
    { induction l as [|y l IH]; intros d Sd Nl d'; [split; [assumption|cbn; intros; tauto]|]. unfold d'. cbn [fold_left].
      destruct (is_has old y) eqn:Hy.
      - destruct (IH d Sd) as [P Q]; [intros X; apply Nl; right; assumption|]. split; [exact P|]. intros x. rewrite (Q x). cbn. intuition congruence.
      - destruct (IH (cset d y z)) as [P Q].
        + destruct Sd as (D1 & D2 & D3). split; [apply mwf_mset; assumption|]. split; [apply keys_cset; right; assumption|].
          intros x Hx. rewrite comp_cset. destruct (string_dec x y) as [->|n0]; [unfold z; cbn [prows pntt]; rewrite tab_length; split; reflexivity|].
          apply D3. apply keys_cset in Hx as [|]; [congruence|assumption].
        + intros X; apply Nl; right; assumption.
        + split; [exact P|]. intros x. rewrite (Q x), keys_cset. cbn. intuition congruence. }
    destruct (G (o 1%nat (keys ids)) c) as [P Q]; [split; [|split]; assumption|intros X; apply N0; apply (Permutation_in _ (O 1%nat _)); assumption|].
    split; [exact P|]. intros x. rewrite (Q x). split; [intros [|[X _]]; [left; assumption|right; apply (Permutation_in _ (O 1%nat _)); assumption]|].
    intros [X|X]; [left; assumption|]. destruct (in_dec string_dec x (keys c)) as [J|J]; [left; assumption|right].
    split; [apply (Permutation_in _ (Permutation_sym (O 1%nat _))); assumption|]. destruct (is_has old x) eqn:E; [|reflexivity]. apply B in E. tauto.
  Qed.

  Lemma rows_firstn_tab level (p : poly N) : (level < length (prows p))%nat -> firstn (S level) (prows p) = tab (S level) (row (prows p)).
  Proof.
    intros H. rewrite (list_tab (firstn (S level) (prows p)) (S level) R0) by (rewrite firstn_length; lia).
    apply tab_ext. intros i Hi. unfold row. apply nth_firstn. assumption.
  Qed.

  Lemma evaluateInPlace_ok (o : order) st (c0 c1 out : ckct N) ev l0 l1 : order_ok o -> pool_ok st ->
    (l0 <= maxLevel pp)%nat -> (l1 <= maxLevel pp)%nat ->
    shape (S l0) (cv c0) -> shape (S l1) (cv c1) -> let level := Nat.min l0 l1 in shape (S level) (cv out) ->
    (forall x, In x (keys (cv out)) <-> In x (keys (cv c0)) \/ In x (keys (cv c1))) ->
    match alignOf (csc c0) (csc c1) l0 l1 with
    | Panic => evaluateInPlace pp o st c0 c1 out ev = Panic
    | Ok (k0, k1) => exists st' v, evaluateInPlace pp o st c0 c1 out ev = Ok (st', CK v (csc out)) /\ pool_ok st' /\ mwf v /\
        (forall x, In x (keys v) <-> In x (keys (cv c0)) \/ In x (keys (cv c1))) /\
        forall x, In x (keys v) -> comp v x = Pol (tab (S level) (binrow ev k0 k1 (cv c0) (cv c1) x)) false
    end.
  Proof.
    intros O [SP LP] H0 H1 S0 S1 level SO KO. unfold evaluateInPlace.
    destruct (IDSetOf_ok (o 0%nat) (cv c0)) as (ids0 & A0 & M0 & B0); [intros l; apply O|].
    destruct (IDSetOf_ok (o 1%nat) (cv c1)) as (ids1 & A1 & M1 & B1); [intros l; apply O|]. rewrite A0, A1. cbn [rbind].
    assert (RP : forall (ids : idset) (c : ct), mwf ids -> (forall x, is_has ids x = true <-> x <> id0 /\ In x (keys c)) -> IdSetProofs.rep ids (fun x => x <> id0 /\ In x (keys c))).
    { intros ids c M B. assert (X : forall x, In x (keys ids) <-> x <> id0 /\ In x (keys c)) by (intros x; rewrite <- (B x); unfold is_has; rewrite mhas_In; reflexivity).
      split; [assumption|]. split; [rewrite X; tauto|exact X]. }
    destruct (rep_union o O 2 ids0 _ ids1 _ (RP _ _ M0 B0) (RP _ _ M1 B1)) as (ids & AU & RU). rewrite AU. cbn [rbind].
    destruct (pad_shape (fun n => o (10 + n)%nat) (maxLevel pp) (ctxtPool st) ids) as (pool & AP & SPl & KP); [intros n l; apply O|assumption|apply RU|].
    rewrite AP. cbn [rbind]. rewrite (shape_level _ _ S0), (shape_level _ _ S1), (shape_level _ _ SO). cbn [rbind]. fold level. rewrite Nat.min_id.
    destruct (Nat.ltb_spec level level); [lia|]. cbn [rbind].
    assert (IP : forall x, In x (keys (cv c0)) \/ In x (keys (cv c1)) -> In x (keys pool)).
    { intros x Hx. apply KP. destruct (string_dec x id0) as [->|n]; [left; apply SP|]. right. apply (proj2 (proj2 RU)). tauto. }
    (* the aligned operands *)
    set (ali := if f_gt (csc c1) (csc c0) && _ then _ else _).
    assert (AL : match alignOf (csc c0) (csc c1) l0 l1 with Panic => ali = Panic
       | Ok (k0, k1) => exists pool' t0 t1, ali = Ok (pool', t0, t1) /\ shape (S (maxLevel pp)) pool' /\
           (forall x, In x (keys (cv c0)) -> In x (keys t0) /\ (level < length (prows (comp t0 x)))%nat /\ forall j, (j <= level)%nat -> row (prows (comp t0 x)) j = opnd k0 (cv c0) x j) /\
           (forall x, In x (keys (cv c1)) -> In x (keys t1) /\ (level < length (prows (comp t1 x)))%nat /\ forall j, (j <= level)%nat -> row (prows (comp t1 x)) j = opnd k1 (cv c1) x j) end).
    { unfold alignOf, ali.
      assert (PL : forall l (c : ct), shape (S l) c -> (level <= l)%nat -> forall x, In x (keys c) -> In x (keys c) /\ (level < length (prows (comp c x)))%nat /\ forall j, (j <= level)%nat -> row (prows (comp c x)) j = opnd None c x j).
      { intros l c Sc Hl x Hx. split; [assumption|]. split; [rewrite (proj1 (proj2 (proj2 Sc) x Hx)); lia|reflexivity]. }
      assert (MB : forall (c : ckct N) l k, shape (S l) (cv c) -> (level <= l)%nat -> (l <= maxLevel pp)%nat -> incl (keys (cv c)) (keys pool) ->
        match mbcConsts l k with Panic => MultByConst pp (o 5%nat) c k (CK pool (csc out)) = Panic
        | Ok cs => exists p, MultByConst pp (o 5%nat) c k (CK pool (csc out)) = Ok p /\ shape (S (maxLevel pp)) (cv p) /\
           forall x, In x (keys (cv c)) -> In x (keys (cv p)) /\ (level < length (prows (comp (cv p) x)))%nat /\ forall j, (j <= level)%nat -> row (prows (comp (cv p) x)) j = opnd (Some cs) (cv c) x j end).
      { intros c l k Sc Hl1 Hl2 Ic. pose proof (MultByConst_ok (o 5%nat) c (CK pool (csc out)) k l (maxLevel pp) ltac:(intros z; apply O) Sc SPl Ic) as X. cbn zeta in X.
        rewrite (Nat.min_l l (maxLevel pp)) in X by lia. destruct (mbcConsts l k) as [cs|]; [|exact X].
        destruct X as (v & X1 & X2 & X3 & X4 & X5). eexists. split; [exact X1|]. cbn [cv] in *. split; [exact X2|]. intros x Hx.
        split; [apply X3; apply Ic; assumption|]. rewrite X4 by assumption. cbn [prows]. split; [rewrite app_length, tab_length; lia|].
        intros j Hj. rewrite row_app1 by (rewrite tab_length; lia). rewrite row_tab by lia. reflexivity. }
      destruct (f_gt (csc c1) (csc c0) && f_gt (f_floor (f_div (csc c1) (csc c0))) f_one).
      - specialize (MB c0 l0 (CFloat (f_floor (f_div (csc c1) (csc c0)))) S0 ltac:(lia) H0 ltac:(intros x Hx; apply IP; tauto)).
        destruct (mbcConsts l0 _) as [cs|]; cbn [rbind]; [|rewrite MB; reflexivity].
        destruct MB as (p & E & Sp & HP). rewrite E. cbn [rbind]. exists (cv p), (cv p), (cv c1). split; [reflexivity|]. split; [exact Sp|]. split; [exact HP|]. apply (PL l1); trivial; lia.
      - destruct (f_gt (csc c0) (csc c1) && f_gt (f_floor (f_div (csc c0) (csc c1))) f_one).
        + specialize (MB c1 l1 (CFloat (f_floor (f_div (csc c0) (csc c1)))) S1 ltac:(lia) H1 ltac:(intros x Hx; apply IP; tauto)).
          destruct (mbcConsts l1 _) as [cs|]; cbn [rbind]; [|rewrite MB; reflexivity].
          destruct MB as (p & E & Sp & HP). rewrite E. cbn [rbind]. exists (cv p), (cv c0), (cv p). split; [reflexivity|]. split; [exact Sp|]. split; [|exact HP]. apply (PL l0); trivial; lia.
        + exists pool, (cv c0), (cv c1). split; [reflexivity|]. split; [exact SPl|]. split; [apply (PL l0); trivial; lia|apply (PL l1); trivial; lia]. }
    clearbody ali. destruct (alignOf (csc c0) (csc c1) l0 l1) as [[k0 k1]|]; [|rewrite AL; reflexivity].
    destruct AL as (pool' & t0 & t1 & AE & SP' & T0 & T1). rewrite AE. cbn [rbind].
    pose proof (proj1 (proj2 S0)) as I00. pose proof (proj1 (proj2 S1)) as I01. pose proof (proj1 (proj2 SO)) as I0o.
    destruct (T0 _ I00) as (J0 & Lr0 & R0'). destruct (T1 _ I01) as (J1 & Lr1 & R1').
    rewrite (cgetL_comp t0), (cgetL_comp t1) by assumption. cbn [rbind]. rewrite (cget_comp (cv out) id0 I0o). cbn [rbind].
    assert (LO : forall x, In x (keys (cv out)) -> length (prows (comp (cv out) x)) = S level /\ pntt (comp (cv out) x) = false) by apply SO.
    rewrite wrLvl_full by (rewrite ?lvlQ2_len; trivial; apply LO; assumption). cbn [rbind].
    set (v0 := cset (cv out) id0 _).
    assert (K0 : forall x, In x (keys v0) <-> In x (keys (cv out))) by (intros x; apply keys_upd; assumption).
    destruct (IDSetOf_ok (o 6%nat) v0) as (idso & AO & MO & BO); [intros l; apply O|]. rewrite AO. cbn [rbind].
    assert (KI : forall x, In x (o 7%nat (keys idso)) <-> x <> id0 /\ In x (keys (cv out))).
    { intros x. rewrite <- (K0 x), <- (BO x). unfold is_has. rewrite mhas_In. split; intros X; [apply (Permutation_in _ (O 7%nat _))|apply (Permutation_in _ (Permutation_sym (O 7%nat _)))]; exact X. }
    match goal with |- context [rfold ?ff _ v0] => destruct (loop1 ff (fun x p => Pol (tab (S level) (binrow ev k0 k1 (cv c0) (cv c1) x)) false) (o 7%nat (keys idso)) v0) as (v & V1 & V2 & V3 & V4) end.
    - apply (Permutation_NoDup (Permutation_sym (O 7%nat _))). exact MO.
    - apply mwf_mset. apply SO.
    - intros x Hx. apply K0. apply KI in Hx. tauto.
    - intros c id Hid W K E. apply KI in Hid as [Nid Kid]. rewrite cget_comp by (apply K, K0; assumption). cbn [rbind].
      assert (E2 : comp c id = comp (cv out) id) by (rewrite E; apply comp_neq; assumption). destruct (LO id Kid) as [L1 F1]. rewrite E2, F1.
      assert (HB : forall (ids : idset) (cc : ct), (forall x, is_has ids x = true <-> x <> id0 /\ In x (keys cc)) -> is_has ids id = if in_dec string_dec id (keys cc) then true else false).
      { intros ids' cc B. destruct (in_dec string_dec id (keys cc)) as [I|I]; [apply B; tauto|]. destruct (is_has ids' id) eqn:X; [apply B in X; tauto|reflexivity]. }
      rewrite (HB ids0 (cv c0) B0), (HB ids1 (cv c1) B1). 
      destruct (in_dec string_dec id (keys (cv c0))) as [D0|D0]; cbn [negb].
      + destruct (T0 id D0) as (P1 & P2 & P3). destruct (in_dec string_dec id (keys (cv c1))) as [D1|D1]; cbn [negb].
        * destruct (T1 id D1) as (Q1 & Q2 & Q3). rewrite (cgetL_comp t0), (cgetL_comp t1) by assumption. cbn [rbind].
          rewrite wrLvl_full by (rewrite ?lvlQ2_len; trivial). cbn [rbind]. f_equal. f_equal. f_equal. apply tab_ext. intros j Hj. unfold binrow.
          destruct (string_dec id id0); [contradiction|]. destruct (in_dec string_dec id (keys (cv c0))); [|contradiction]. destruct (in_dec string_dec id (keys (cv c1))); [|contradiction].
          rewrite P3, Q3 by lia. reflexivity.
        * rewrite (cgetL_comp t0) by assumption. cbn [rbind]. rewrite wrLvl_ok' by lia. cbn [rbind]. rewrite skipn_all2, app_nil_r, rows_firstn_tab by lia. f_equal. f_equal. f_equal.
          apply tab_ext. intros j Hj. unfold binrow. destruct (string_dec id id0); [contradiction|]. destruct (in_dec string_dec id (keys (cv c0))); [|contradiction]. destruct (in_dec string_dec id (keys (cv c1))); [contradiction|].
          apply P3; lia.
      + assert (D1 : In id (keys (cv c1))) by (apply KO in Kid; tauto). destruct (T1 id D1) as (Q1 & Q2 & Q3). rewrite (cgetL_comp t1) by assumption. cbn [rbind].
        rewrite wrLvl_ok' by lia. cbn [rbind]. rewrite skipn_all2, app_nil_r, rows_firstn_tab by lia. f_equal. f_equal. f_equal.
        apply tab_ext. intros j Hj. unfold binrow. destruct (string_dec id id0); [contradiction|]. destruct (in_dec string_dec id (keys (cv c0))); [contradiction|]. apply Q3; lia.
    - rewrite V1. cbn [rbind]. eexists. exists v. split; [reflexivity|]. split; [split; [exact SP'|exact LP]|]. split; [exact V2|].
      assert (KV : forall x, In x (keys v) <-> In x (keys (cv c0)) \/ In x (keys (cv c1))) by (intros x; rewrite V3, K0; apply KO). split; [exact KV|].
      intros x Hx. rewrite V4. destruct (in_dec string_dec x (o 7%nat (keys idso))) as [J|J]; [reflexivity|].
      destruct (string_dec x id0) as [->|n]; [|exfalso; apply J; apply KI; split; [assumption|apply KO, KV; assumption]].
      unfold v0. rewrite comp_eq, (proj2 (LO _ I0o)). f_equal. apply tab_ext. intros j Hj. unfold binrow. destruct (string_dec id0 id0); [|congruence]. rewrite R0', R1' by lia. reflexivity.
  Qed.

  (** *** the constants of a real factor *)
  Lemma nth_rmapM {A B} l ys (Pr : A -> B -> Prop) d e j : Forall2 Pr l ys -> (j < length l)%nat -> Pr (nth j l d) (nth j ys e).
  Proof. intros H. revert j. induction H; cbn [length]; intros j Hj; [lia|]. destruct j; cbn [nth]; [assumption|]. apply IHForall2. lia. Qed.
  Lemma mbc_real level k (v sc : f64) : (level < length (Qm pp))%nat -> getConstAndScale pp level k = (v, f_zero, sc) ->
    is_finite v = true -> is_finite sc = true -> (0 <= B2R sc)%R -> (Rabs (B2R sc * B2R v) <= big / 4)%R ->
    exists cs, mbcConsts level k = Ok cs /\ forall j, (j <= level)%nat -> exists x, nth j cs (0, 0) = (mform x (mq (Qi pp j)) (bred_params (mq (Qi pp j))), mform x (mq (Qi pp j)) (bred_params (mq (Qi pp j)))) /\
      0 <= x <= mq (Qi pp j) /\ eqz (mq (Qi pp j)) x (supInt v sc).
  Proof.
    intros HL E Fv Fs S0 HB. unfold mbcConsts. rewrite E.
    pose (Pr := fun (j : nat) (y : Z * Z) => exists x, y = (mform x (mq (Qi pp j)) (bred_params (mq (Qi pp j))), mform x (mq (Qi pp j)) (bred_params (mq (Qi pp j)))) /\
      0 <= x <= mq (Qi pp j) /\ eqz (mq (Qi pp j)) x (supInt v sc)).
    destruct (rmapM_ok (fun i => scaledConsts (N := N) (Qi pp i) v f_zero sc) (seq 0 (S level)) Pr) as (cs & C1 & C2).
    { intros j Hj. apply in_seq in Hj. destruct (okQ pp WF j ltac:(lia)) as [_ K]. pose proof (okq_lt _ K) as QW. assert (Q0 : 0 < mq (Qi pp j)) by (destruct K; lia).
      unfold scaledConsts. replace (f_eq f_zero f_zero) with true by reflexivity. cbn [negb].
      destruct (f_eq v f_zero) eqn:Ez; cbn [negb rbind].
      - apply (f_eq_ok v f_zero Fv (proj2 f_zero_ok)) in Ez. rewrite (proj1 f_zero_ok) in Ez.
        eexists. split; [reflexivity|]. exists 0. split; [reflexivity|]. split; [lia|]. rewrite supInt_zero by assumption. apply eqz_refl.
      - destruct (scaleUp_ok v sc (mq (Qi pp j)) Fv Fs S0 HB ltac:(lia)) as (x & X1 & X2 & X3). rewrite X1. cbn [rbind].
        eexists. split; [reflexivity|]. exists x. split; [reflexivity|]. split; assumption. }
    exists cs. split; [exact C1|]. intros j Hj. pose proof (nth_rmapM _ _ Pr 0%nat (0, 0) j C2) as X. rewrite seq_length, seq_nth in X by lia. cbn [plus] in X.
    apply X. lia.
  Qed.
  Lemma hrow_ok level cs X (c : ct) x j : (level < length (Qm pp))%nat -> (j <= level)%nat ->
    (exists y, nth j cs (0, 0) = (mform y (mq (Qi pp j)) (bred_params (mq (Qi pp j))), mform y (mq (Qi pp j)) (bred_params (mq (Qi pp j)))) /\ 0 <= y <= mq (Qi pp j) /\ eqz (mq (Qi pp j)) y X) ->
    inr (Qi pp j) (row (prows (comp c x)) j) ->
    inr (Qi pp j) (hrow cs c x j) /\ eqm (mq (Qi pp j)) (hrow cs c x j) (mul (cst X) (row (prows (comp c x)) j)).
  Proof.
    intros HL Hj (y & E & Hy & Ey) I. unfold hrow. rewrite E. destruct (okQ pp WF j ltac:(lia)) as [_ K].
    destruct (halves_const (Qi pp j) y (row (prows (comp c x)) j) K Hy I) as [A B]. split; [exact A|]. eapply eqm_trans; [exact B|].
    rewrite <- smul_cst. apply eqm_co. intros i Hi. rewrite !co_smul. change (eqz (mq (Qi pp j)) (y * co (row (prows (comp c x)) j) i) (X * co (row (prows (comp c x)) j) i)).
    apply eqz_mul; [assumption|apply eqz_refl].
  Qed.

  (** *** the alignment factor *)
  Definition Kf (a b : f64) : Z := Z.max 1 (Zfloor (rnd (B2R b / B2R a))).
  Definition okratio (a b : f64) : Prop := (B2R b / B2R a <= IZR (2 ^ 52 - 1))%R \/ (IZR (2 ^ 53) <= B2R b / B2R a <= IZR (2 ^ 62))%R.
  Lemma ratio_facts (a b : f64) : is_finite a = true -> is_finite b = true -> (0 < B2R a)%R -> (0 < B2R b)%R -> okratio a b ->
    let r := f_floor (f_div b a) in let K := Zfloor (rnd (B2R b / B2R a)) in
    is_finite r = true /\ B2R r = IZR K /\ (0 <= K < 2 ^ 52 \/ 2 ^ 53 <= K <= 2 ^ 62) /\ ((B2R b <= B2R a)%R -> K <= 1).
  Proof.
    intros Fa Fb A0 B0 OR r K.
    assert (D0 : (0 < B2R b / B2R a)%R) by (apply Rdiv_lt_0_compat; assumption).
    assert (DB : (Rabs (B2R b / B2R a) <= big)%R).
    { rewrite Rabs_pos_eq by lra. assert (IZR (2 ^ 62) <= big)%R by (unfold big; apply IZR_le; apply Z.pow_le_mono_r; lia).
      assert (IZR (2 ^ 52 - 1) <= IZR (2 ^ 62))%R by (apply IZR_le; lia). destruct OR; lra. }
    destruct (f_div_ok' b a Fb ltac:(lra) DB) as [E F]. destruct (f_floor_ok (f_div b a)) as [E2 F2]. unfold r. rewrite F2, E2, E. fold K.
    split; [exact F|]. split; [reflexivity|].
    assert (R0' : (0 <= rnd (B2R b / B2R a))%R) by (apply rnd_nonneg; lra).
    assert (FL : forall z, fmt_ok z -> (B2R b / B2R a <= IZR z)%R -> K <= z).
    { intros z Fz Hz. apply le_IZR. unfold K. eapply Rle_trans; [apply Zfloor_lb|]. rewrite <- (rnd_fmt (IZR z)) by exact Fz. apply rnd_le. exact Hz. }
    assert (FG : forall z, fmt_ok z -> (IZR z <= B2R b / B2R a)%R -> z <= K).
    { intros z Fz Hz. apply Zfloor_lub. rewrite <- (rnd_fmt (IZR z)) by exact Fz. apply rnd_le. exact Hz. }
    split.
    - destruct OR as [O1|[O1 O2]].
      + left. split; [apply Zfloor_lub; exact R0'|]. specialize (FL (2 ^ 52 - 1) ltac:(apply fmt_int; lia) O1). lia.
      + right. split; [apply FG; [apply fmt_pow; lia|assumption]|apply FL; [apply fmt_pow; lia|assumption]].
    - intros HL. apply FL; [apply fmt_int; lia|]. apply Rmult_le_reg_r with (B2R a); [assumption|]. unfold Rdiv. rewrite Rmult_assoc, Rinv_l by lra. lra.
  Qed.
  Lemma opnd_none (c : ct) x j q : eqm q (opnd None c x j) (mul (cst 1) (row (prows (comp c x)) j)).
  Proof. apply eqm_eq. cbn [opnd]. rewrite cst_1. ring. Qed.
  Definition opnd_ok k K (c : ct) level : Prop := forall x j, (j <= level)%nat -> inr (Qi pp j) (row (prows (comp c x)) j) ->
    inr (Qi pp j) (opnd k c x j) /\ eqm (mq (Qi pp j)) (opnd k c x j) (mul (cst K) (row (prows (comp c x)) j)).
  Lemma opnd_none_ok (c : ct) level : opnd_ok None 1 c level.
  Proof. intros x j Hj I. split; [exact I|apply opnd_none]. Qed.
  (** no alignment: neither scale is the greater one (equal, or not comparable) *)
  Lemma align_none s0 s1 l0 l1 : f_lt s0 s1 = false -> f_lt s1 s0 = false -> alignOf s0 s1 l0 l1 = Ok (None, None).
  Proof. intros A B. unfold alignOf, f_gt. rewrite A, B. reflexivity. Qed.
  Lemma const_int level (r : f64) K : is_finite r = true -> B2R r = IZR K -> 0 <= K <= 2 ^ 62 -> getConstAndScale pp level (CFloat r) = (r, f_zero, f_one).
  Proof.
    intros F E H. unfold getConstAndScale. replace (hasFrac r) with false; [reflexivity|]. symmetry. unfold hasFrac. apply andb_false_intro2.
    rewrite (int64_int r K F E ltac:(lia)). destruct (of_int_exact r K F E ltac:(lia)) as [E2 F2].
    destruct (f_sub_ok r (f_of_int K) F F2) as [E3 F3]; [rewrite E, E2, Rminus_diag_eq, Rabs_R0 by reflexivity; unfold big; apply IZR_le; lia|].
    apply negb_false_iff. apply (f_eq_ok _ _ F3 (proj2 f_zero_ok)). rewrite E3, E, E2, Rminus_diag_eq by reflexivity. rewrite (proj1 f_zero_ok). apply round_0. apply valid_rnd_N.
  Qed.
  Lemma const_int_ok level (r : f64) K (c : ct) : (level < length (Qm pp))%nat -> is_finite r = true -> B2R r = IZR K -> (0 <= K < 2 ^ 52 \/ 2 ^ 53 <= K <= 2 ^ 62) ->
    exists cs, mbcConsts level (CFloat r) = Ok cs /\ opnd_ok (Some cs) K c level.
  Proof.
    intros HL F E HK. destruct f_one_ok as [E1 F1].
    destruct (mbc_real level (CFloat r) r f_one HL (const_int level r K F E ltac:(lia)) F F1) as (cs & C1 & C2).
    - rewrite E1. lra.
    - rewrite E1, Rmult_1_l, E, <- abs_IZR. unfold big. apply Rle_trans with (IZR (2 ^ 62)); [apply IZR_le; lia|].
      change (2 ^ 1000) with (2 ^ 998 * 4). rewrite mult_IZR. assert (IZR (2 ^ 62) <= IZR (2 ^ 998))%R by (apply IZR_le; apply Z.pow_le_mono_r; lia). lra.
    - exists cs. split; [exact C1|]. intros x j Hj I. cbn [opnd]. apply (hrow_ok level); trivial. destruct (C2 j Hj) as (y & Y1 & Y2 & Y3). exists y. split; [exact Y1|]. split; [exact Y2|].
      rewrite (supInt_int r K F E) in Y3; [exact Y3|]. assert (2 ^ 62 < 2 ^ 900) by (apply Z.pow_lt_mono_r; lia). lia.
  Qed.
  Lemma align_ok (s0 s1 : f64) l0 l1 (c0 c1 : ct) : (l0 < length (Qm pp))%nat -> (l1 < length (Qm pp))%nat ->
    is_finite s0 = true -> is_finite s1 = true -> (0 < B2R s0)%R -> (0 < B2R s1)%R -> okratio s0 s1 -> okratio s1 s0 ->
    exists k0 k1, alignOf s0 s1 l0 l1 = Ok (k0, k1) /\ opnd_ok k0 (Kf s0 s1) c0 l0 /\ opnd_ok k1 (Kf s1 s0) c1 l1.
  Proof.
    intros H0 H1 F0 F1 P0 P1 O01 O10. unfold alignOf.
    destruct (ratio_facts s0 s1 F0 F1 P0 P1 O01) as (Fr & Er & Kr & Lr). destruct (ratio_facts s1 s0 F1 F0 P1 P0 O10) as (Ft & Et & Kt & Lt).
    unfold Kf. set (r := f_floor (f_div s1 s0)) in *. set (t := f_floor (f_div s0 s1)) in *. set (K := Zfloor (rnd (B2R s1 / B2R s0))) in *. set (L := Zfloor (rnd (B2R s0 / B2R s1))) in *.
    destruct f_one_ok as [E1 FO].
    assert (G : forall (a : f64) A, is_finite a = true -> B2R a = IZR A -> f_gt a f_one = (1 <? A)).
    { intros a A Fa Ea. unfold f_gt. pose proof (f_lt_ok f_one a FO Fa) as X. rewrite E1, Ea in X. destruct (Z.ltb_spec 1 A).
      - apply X. apply IZR_lt. assumption.
      - apply (bool_iff _ _ X). apply Rle_not_lt. apply IZR_le. assumption. }
    rewrite (G r K Fr Er), (G t L Ft Et).
    pose proof (f_lt_ok s0 s1 F0 F1) as L01. pose proof (f_lt_ok s1 s0 F1 F0) as L10. unfold f_gt.
    destruct (Rlt_le_dec (B2R s0) (B2R s1)) as [D|D].
    - rewrite (proj2 L01 D). rewrite (bool_iff _ _ L10) by lra. cbn [andb]. specialize (Lt ltac:(lra)). rewrite (Z.max_l 1 L) by lia.
      destruct (Z.ltb_spec 1 K) as [HK|HK].
      + destruct (const_int_ok l0 r K c0 H0 Fr Er Kr) as (cs & C1 & C2). rewrite C1. cbn [rbind]. rewrite (Z.max_r 1 K) by lia.
        eexists _, _. split; [reflexivity|]. split; [exact C2|apply opnd_none_ok].
      + rewrite (Z.max_l 1 K) by lia. eexists _, _. split; [reflexivity|]. split; apply opnd_none_ok.
    - specialize (Lr D). rewrite (Z.max_l 1 K) by lia. rewrite (bool_iff _ _ L01) by lra. cbn [andb].
      destruct (Rlt_le_dec (B2R s1) (B2R s0)) as [D'|D'].
      + rewrite (proj2 L10 D'). cbn [andb]. destruct (Z.ltb_spec 1 L) as [HK|HK].
        * destruct (const_int_ok l1 t L c1 H1 Ft Et Kt) as (cs & C1 & C2). rewrite C1. cbn [rbind]. rewrite (Z.max_r 1 L) by lia.
          eexists _, _. split; [reflexivity|]. split; [apply opnd_none_ok|exact C2].
        * rewrite (Z.max_l 1 L) by lia. eexists _, _. split; [reflexivity|]. split; apply opnd_none_ok.
      + specialize (Lt D'). rewrite (Z.max_l 1 L) by lia. rewrite (bool_iff _ _ L10) by lra. eexists _, _. split; [reflexivity|]. split; apply opnd_none_ok.
  Qed.

  (** *** AddNew, SubNew *)
  Lemma newBinary_ok (o : order) (c0 c1 : ckct N) l0 l1 : order_ok o -> (l0 < length (Qm pp))%nat -> (l1 < length (Qm pp))%nat ->
    shape (S l0) (cv c0) -> shape (S l1) (cv c1) ->
    exists v, newCiphertextBinary o c0 c1 = Ok (CK v (f_max (csc c0) (csc c1))) /\ wfct (Nat.min l0 l1) false v /\
      forall x, In x (keys v) <-> In x (keys (cv c0)) \/ In x (keys (cv c1)).
  Proof.
    intros O H0 H1 S0 S1. unfold newCiphertextBinary. rewrite (shape_level _ _ S0), (shape_level _ _ S1). cbn [rbind].
    destruct (IDSetOf_ok (o 20%nat) (cv c0)) as (ids0 & A0 & M0 & B0); [intros l; apply O|].
    destruct (IDSetOf_ok (o 21%nat) (cv c1)) as (ids1 & A1 & M1 & B1); [intros l; apply O|]. rewrite A0, A1. cbn [rbind].
    assert (RP : forall (ids : idset) (c : ct), mwf ids -> (forall x, is_has ids x = true <-> x <> id0 /\ In x (keys c)) -> IdSetProofs.rep ids (fun x => x <> id0 /\ In x (keys c))).
    { intros ids c M B. assert (X : forall x, In x (keys ids) <-> x <> id0 /\ In x (keys c)) by (intros x; rewrite <- (B x); unfold is_has; rewrite mhas_In; reflexivity).
      split; [assumption|]. split; [rewrite X; tauto|exact X]. }
    destruct (rep_union o O 22 ids0 _ ids1 _ (RP _ _ M0 B0) (RP _ _ M1 B1)) as (ids & AU & RU). rewrite AU. cbn [rbind].
    eexists. split; [reflexivity|]. destruct (C03_new_ciphertext N pp (o 24%nat) ids (Nat.min l0 l1) WF) as (W & K & _); [intros l; apply O|lia|].
    split; [exact W|]. intros x. rewrite K, (proj2 (proj2 RU) x). pose proof (proj1 (proj2 S0)). destruct (string_dec x id0) as [->|n]; tauto.
  Qed.
  Lemma binrow_ok ev K0 K1 k0 k1 (c0 c1 : ct) l0 l1 x j (opf : R -> R -> R) : let level := Nat.min l0 l1 in
    (l0 < length (Qm pp))%nat -> (l1 < length (Qm pp))%nat -> wfct l0 false c0 -> wfct l1 false c1 ->
    opnd_ok k0 K0 c0 l0 -> opnd_ok k1 K1 c1 l1 -> (j <= level)%nat -> In x (keys c0) \/ In x (keys c1) ->
    (forall m a b, okq (mq m) -> inr m a -> inr m b -> inr m (ev m a b) /\ eqm (mq m) (ev m a b) (opf a b)) ->
    (forall q a a' b b', eqm q a a' -> eqm q b b' -> eqm q (opf a b) (opf a' b')) ->
    inr (Qi pp j) (binrow ev k0 k1 c0 c1 x j) /\
    eqm (mq (Qi pp j)) (binrow ev k0 k1 c0 c1 x j)
      (if in_dec string_dec x (keys c0) then if in_dec string_dec x (keys c1) then opf (mul (cst K0) (row (prows (comp c0 x)) j)) (mul (cst K1) (row (prows (comp c1 x)) j))
         else mul (cst K0) (row (prows (comp c0 x)) j) else mul (cst K1) (row (prows (comp c1 x)) j)).
  Proof.
    intros level H0 H1 W0 W1 P0 P1 Hj Hx EV CG. destruct (okQ pp WF j ltac:(lia)) as [_ K].
    assert (I0 : In x (keys c0) -> inr (Qi pp j) (row (prows (comp c0 x)) j)) by (intros I; apply (wfct_comp pp _ _ _ _ W0 I); lia).
    assert (I1 : In x (keys c1) -> inr (Qi pp j) (row (prows (comp c1 x)) j)) by (intros I; apply (wfct_comp pp _ _ _ _ W1 I); lia).
    assert (X : In x (keys c0) -> In x (keys c1) -> inr (Qi pp j) (ev (Qi pp j) (opnd k0 c0 x j) (opnd k1 c1 x j)) /\
       eqm (mq (Qi pp j)) (ev (Qi pp j) (opnd k0 c0 x j) (opnd k1 c1 x j)) (opf (mul (cst K0) (row (prows (comp c0 x)) j)) (mul (cst K1) (row (prows (comp c1 x)) j)))).
    { intros J0 J1. destruct (P0 x j ltac:(lia) (I0 J0)) as [A1 A2]. destruct (P1 x j ltac:(lia) (I1 J1)) as [B1 B2]. destruct (EV (Qi pp j) _ _ K A1 B1) as [E1 E2].
      split; [exact E1|]. eapply eqm_trans; [exact E2|]. apply CG; assumption. }
    unfold binrow. destruct (string_dec x id0) as [->|n].
    - pose proof (proj1 (proj2 W0)) as J0. pose proof (proj1 (proj2 W1)) as J1. destruct (in_dec string_dec id0 (keys c0)); [|contradiction]. destruct (in_dec string_dec id0 (keys c1)); [|contradiction].
      apply X; assumption.
    - destruct (in_dec string_dec x (keys c0)) as [J0|J0]; [destruct (in_dec string_dec x (keys c1)) as [J1|J1]; [apply X; assumption|apply P0; [lia|apply I0; assumption]]|].
      apply P1; [lia|]. apply I1. tauto.
  Qed.
  Lemma pval_row level (c : ct) x j : wfct level false c -> pvalue (comp c x) j = row (prows (comp c x)) j.
  Proof.
    intros W. destruct (in_dec string_dec x (keys c)) as [I|I].
    - unfold CtSpec.pvalue. rewrite (proj1 (proj2 (wfct_comp pp _ _ _ _ W I))). reflexivity.
    - rewrite comp_none by assumption. reflexivity.
  Qed.
  Lemma row_none (c : ct) x j : ~ In x (keys c) -> row (prows (comp c x)) j = R0.
  Proof. intros I. rewrite comp_none by assumption. unfold row. destruct j; reflexivity. Qed.

  Lemma AddNew_ok (o : order) st (c0 c1 : ckct N) l0 l1 k0 k1 K0 K1 : order_ok o -> pool_ok st -> (l0 < length (Qm pp))%nat -> (l1 < length (Qm pp))%nat ->
    wfct l0 false (cv c0) -> wfct l1 false (cv c1) -> let level := Nat.min l0 l1 in
    alignOf (csc c0) (csc c1) l0 l1 = Ok (k0, k1) -> opnd_ok k0 K0 (cv c0) l0 -> opnd_ok k1 K1 (cv c1) l1 ->
    exists st' v, AddNew pp o st c0 c1 = Ok (st', CK v (f_max (csc c0) (csc c1))) /\ pool_ok st' /\ wfct level false v /\
      (forall x, In x (keys v) <-> In x (keys (cv c0)) \/ In x (keys (cv c1))) /\
      forall s j, (j <= level)%nat -> eqm (mq (Qi pp j)) (phase s v j) (add (mul (cst K0) (phase s (cv c0) j)) (mul (cst K1) (phase s (cv c1) j))).
  Proof.
    intros O PO H0 H1 W0 W1 level AL P0 P1. unfold AddNew.
    destruct (newBinary_ok o c0 c1 l0 l1 O H0 H1 (wfct_shape _ _ W0) (wfct_shape _ _ W1)) as (u & A & WU & KU). rewrite A. cbn [rbind].
    assert (LM : maxLevel pp = (length (Qm pp) - 1)%nat) by reflexivity.
    pose proof (evaluateInPlace_ok o st c0 c1 (CK u (f_max (csc c0) (csc c1))) r_add l0 l1 O PO ltac:(lia) ltac:(lia) (wfct_shape _ _ W0) (wfct_shape _ _ W1) (wfct_shape _ _ WU) KU) as X.
    cbn zeta in X. fold level in X. cbn [csc] in X. rewrite AL in X. destruct X as (st' & v & X1 & X2 & X3 & X4 & X5). exists st', v. split; [exact X1|]. split; [exact X2|].
    assert (BR : forall x j, In x (keys (cv c0)) \/ In x (keys (cv c1)) -> (j <= level)%nat -> _) by
      (intros x j Hx Hj; exact (binrow_ok r_add K0 K1 k0 k1 (cv c0) (cv c1) l0 l1 x j add H0 H1 W0 W1 P0 P1 Hj Hx (@r_add_ok N) (@eqm_add N))).
    assert (WV : wfct level false v).
    { split; [exact X3|]. split; [apply X4; left; apply W0|]. intros x p Hp.
      assert (I : In x (keys v)) by (apply (mget_In_keys seq_dec); congruence). rewrite (mget_comp v x I) in Hp. injection Hp as <-. rewrite X5 by assumption.
      apply wfpoly_tab. intros j Hj. apply BR; [apply X4; assumption|assumption]. }
    split; [exact WV|]. split; [exact X4|]. intros s j Hj.
    apply phase_comb; [apply W0|apply W1|exact X3|intros x Hx; apply X4; tauto|intros x Hx; apply X4; tauto|].
    intros x Hx. assert (I : In x (keys v)) by (destruct Hx as [ | -> ]; [assumption|apply X4; left; apply W0]).
    rewrite (pval_row level v), (pval_row l0 (cv c0)), (pval_row l1 (cv c1)) by assumption. rewrite (X5 x I). cbn [prows]. rewrite row_tab by lia.
    pose proof (proj1 (X4 x) I) as I'. eapply eqm_trans; [apply BR; assumption|].
    destruct (in_dec string_dec x (keys (cv c0))) as [J0|J0]; [destruct (in_dec string_dec x (keys (cv c1))) as [J1|J1]|].
    - apply eqm_refl.
    - apply eqm_eq. rewrite (row_none (cv c1)) by assumption. ring.
    - apply eqm_eq. rewrite (row_none (cv c0)) by assumption. ring.
  Qed.

  Lemma SubNew_ok (o : order) st (c0 c1 : ckct N) l0 l1 k0 k1 K0 K1 : order_ok o -> pool_ok st -> (l0 < length (Qm pp))%nat -> (l1 < length (Qm pp))%nat ->
    wfct l0 false (cv c0) -> wfct l1 false (cv c1) -> let level := Nat.min l0 l1 in
    alignOf (csc c0) (csc c1) l0 l1 = Ok (k0, k1) -> opnd_ok k0 K0 (cv c0) l0 -> opnd_ok k1 K1 (cv c1) l1 ->
    exists st' v, SubNew pp o st c0 c1 = Ok (st', CK v (f_max (csc c0) (csc c1))) /\ pool_ok st' /\ wfct level false v /\
      (forall x, In x (keys v) <-> In x (keys (cv c0)) \/ In x (keys (cv c1))) /\
      forall s j, (j <= level)%nat -> eqm (mq (Qi pp j)) (phase s v j) (sub (mul (cst K0) (phase s (cv c0) j)) (mul (cst K1) (phase s (cv c1) j))).
  Proof.
    intros O PO H0 H1 W0 W1 level AL P0 P1. unfold SubNew.
    destruct (newBinary_ok o c0 c1 l0 l1 O H0 H1 (wfct_shape _ _ W0) (wfct_shape _ _ W1)) as (u & A & WU & KU). rewrite A. cbn [rbind].
    assert (LM : maxLevel pp = (length (Qm pp) - 1)%nat) by reflexivity.
    pose proof (evaluateInPlace_ok o st c0 c1 (CK u (f_max (csc c0) (csc c1))) r_sub l0 l1 O PO ltac:(lia) ltac:(lia) (wfct_shape _ _ W0) (wfct_shape _ _ W1) (wfct_shape _ _ WU) KU) as X.
    cbn zeta in X. fold level in X. cbn [csc] in X. rewrite AL in X. destruct X as (st' & v & X1 & X2 & X3 & X4 & X5). rewrite X1. cbn [rbind].
    assert (BR : forall x j, In x (keys (cv c0)) \/ In x (keys (cv c1)) -> (j <= level)%nat -> _) by
      (intros x j Hx Hj; exact (binrow_ok r_sub K0 K1 k0 k1 (cv c0) (cv c1) l0 l1 x j sub H0 H1 W0 W1 P0 P1 Hj Hx (@r_sub_ok N) (@eqm_sub N))).
    assert (WV : wfct level false v).
    { split; [exact X3|]. split; [apply X4; left; apply W0|]. intros x p Hp.
      assert (I : In x (keys v)) by (apply (mget_In_keys seq_dec); congruence). rewrite (mget_comp v x I) in Hp. injection Hp as <-. rewrite X5 by assumption.
      apply wfpoly_tab. intros j Hj. apply BR; [apply X4; assumption|assumption]. }
    cbn [cv csc]. rewrite (wfct_level pp _ _ _ W0), (wfct_level pp _ _ _ W1), (wfct_level pp _ _ _ WV). cbn [rbind]. fold level. rewrite Nat.min_id.
    destruct (IDSetOf_ok (o 30%nat) (cv c0)) as (ids0 & A0 & M0 & B0); [intros l; apply O|].
    destruct (IDSetOf_ok (o 31%nat) v) as (idso & AO & MO & BO); [intros l; apply O|]. rewrite A0, AO. cbn [rbind].
    assert (KI : forall x, In x (o 32%nat (keys idso)) <-> x <> id0 /\ In x (keys v)).
    { intros x. rewrite <- (BO x). unfold is_has. rewrite mhas_In. split; intros X; [apply (Permutation_in _ (O 32%nat _))|apply (Permutation_in _ (Permutation_sym (O 32%nat _)))]; exact X. }
    pose (G := fun (x : string) (p : poly N) => if is_has ids0 x then p else Pol (lvlQ1 pp level r_neg (prows p)) (pntt p)).
    match goal with |- context [rfold ?ff _ v] => 
      assert (LP : exists w, rfold ff (o 32%nat (keys idso)) v = Ok w /\ mwf w /\ (forall x, In x (keys w) <-> In x (keys v)) /\ forall x, In x (keys v) -> comp w x = if string_dec x id0 then comp v x else G x (comp v x)) end.
    { (* the iterations that change nothing are removed *)
      set (ff := fun (v : ct) id => if negb (is_has ids0 id) then _ else _).
      assert (FL : forall l w, rfold ff l w = rfold ff (filter (fun x => negb (is_has ids0 x)) l) w).
      { induction l as [|y l IH]; intros w; [reflexivity|]. cbn [rfold filter]. destruct (is_has ids0 y) eqn:Hy; cbn [negb].
        - unfold ff at 1. rewrite Hy. cbn [negb rbind]. apply IH.
        - cbn [rfold]. destruct (ff w y); cbn [rbind]; [apply IH|reflexivity]. }
      rewrite FL. destruct (loop1 ff (fun x p => Pol (lvlQ1 pp level r_neg (prows p)) (pntt p)) (filter (fun x => negb (is_has ids0 x)) (o 32%nat (keys idso))) v) as (w & V1 & V2 & V3 & V4).
      - apply NoDup_filter. apply (Permutation_NoDup (Permutation_sym (O 32%nat _))). exact MO.
      - exact X3.
      - intros x Hx. apply filter_In in Hx as [Hx _]. apply KI in Hx. tauto.
      - intros c id Hid W K E. apply filter_In in Hid as [Hid Hn]. apply KI in Hid as [Nid Kid]. unfold ff. rewrite Hn.
        rewrite cget_comp by (apply K; assumption). cbn [rbind]. rewrite E. rewrite wrLvl_full; [reflexivity|apply (wfct_comp pp _ _ _ _ WV Kid)|apply lvlQ1_len].
      - exists w. split; [exact V1|]. split; [exact V2|]. split; [exact V3|]. intros x Hx. rewrite V4. unfold G.
        destruct (in_dec string_dec x (filter (fun x => negb (is_has ids0 x)) (o 32%nat (keys idso)))) as [J|J].
        + apply filter_In in J as [J1 J2]. apply KI in J1. destruct (string_dec x id0); [tauto|]. destruct (is_has ids0 x); [discriminate|reflexivity].
        + destruct (string_dec x id0); [reflexivity|]. destruct (is_has ids0 x) eqn:Hh; [reflexivity|]. exfalso. apply J. apply filter_In. rewrite Hh. split; [apply KI; tauto|reflexivity]. }
    destruct LP as (w & V1 & V2 & V3 & V4). rewrite V1. cbn [rbind]. exists st', w. split; [reflexivity|]. split; [exact X2|].
    (* every component of the difference *)
    assert (CW : forall x, In x (keys w) -> wfpoly level false (comp w x) /\ forall j, (j <= level)%nat ->
       eqm (mq (Qi pp j)) (row (prows (comp w x)) j) (sub (mul (cst K0) (row (prows (comp (cv c0) x)) j)) (mul (cst K1) (row (prows (comp (cv c1) x)) j)))).
    { intros x Hx. apply V3 in Hx. pose proof (proj1 (X4 x) Hx) as Hx'. rewrite (V4 x Hx). pose proof (wfct_comp pp _ _ _ _ WV Hx) as WP.
      assert (EH : is_has ids0 x = if in_dec string_dec x (keys (cv c0)) then negb (if string_dec x id0 then true else false) else false).
      { destruct (in_dec string_dec x (keys (cv c0))) as [J|J]; destruct (string_dec x id0) as [e|n]; cbn [negb];
          destruct (is_has ids0 x) eqn:Y; trivial; try (apply B0 in Y; tauto). assert (is_has ids0 x = true) by (apply B0; tauto). congruence. }
      assert (RV : forall j, (j <= level)%nat -> row (prows (comp v x)) j = binrow r_sub k0 k1 (cv c0) (cv c1) x j) by (intros j Hj; rewrite (X5 x Hx); cbn [prows]; rewrite row_tab by lia; reflexivity).
      destruct (in_dec string_dec x (keys (cv c0))) as [J0|J0].
      - assert (EC : (if string_dec x id0 then comp v x else G x (comp v x)) = comp v x) by (unfold G; rewrite EH; destruct (string_dec x id0); reflexivity). rewrite EC.
        split; [exact WP|]. intros j Hj. rewrite (RV j Hj). eapply eqm_trans; [apply BR; assumption|].
        destruct (in_dec string_dec x (keys (cv c0))); [|contradiction]. destruct (in_dec string_dec x (keys (cv c1))) as [J1|J1]; [apply eqm_refl|].
        apply eqm_eq. rewrite (row_none (cv c1)) by assumption. ring.
      - assert (Nx : x <> id0) by (intros ->; apply J0; apply W0). destruct (string_dec x id0); [contradiction|]. unfold G. rewrite EH.
        destruct WP as (L1 & F1 & I1). split.
        + rewrite F1. apply wfpoly_tab. intros j Hj. apply r_neg_ok; [apply (okQ pp WF j); lia|apply I1; assumption].
        + intros j Hj. cbn [prows]. unfold lvlQ1. rewrite row_tab by lia. eapply eqm_trans; [apply r_neg_ok; [apply (okQ pp WF j); lia|apply I1; assumption]|].
          rewrite (RV j Hj). eapply eqm_trans; [apply eqm_opp; apply BR; assumption|]. destruct (in_dec string_dec x (keys (cv c0))); [contradiction|].
          apply eqm_eq. rewrite (row_none (cv c0)) by assumption. ring. }
    assert (WW : wfct level false w).
    { split; [exact V2|]. split; [apply V3, X4; left; apply W0|]. intros x p Hp. assert (I : In x (keys w)) by (apply (mget_In_keys seq_dec); congruence).
      rewrite (mget_comp w x I) in Hp. injection Hp as <-. apply CW. assumption. }
    split; [exact WW|]. split; [intros x; rewrite V3; apply X4|]. intros s j Hj.
    eapply eqm_trans; [apply (phase_comb s (cv c0) (cv c1) w j (mq (Qi pp j)) (cst K0) (opp (cst K1))); [apply W0|apply W1|exact V2|intros x Hx; apply V3, X4; tauto|intros x Hx; apply V3, X4; tauto|]|apply eqm_eq; ring].
    intros x Hx. assert (I : In x (keys w)) by (destruct Hx as [ | -> ]; [assumption|apply V3, X4; left; apply W0]).
    rewrite (pval_row level w), (pval_row l0 (cv c0)), (pval_row l1 (cv c1)) by assumption. eapply eqm_trans; [apply CW; assumption|apply eqm_eq; ring].
  Qed.
End Lin.
