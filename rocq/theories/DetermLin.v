(** C74: the operations without key switching give the same results in any iteration order. *)
From Flocq Require Import Core BinarySingleNaN.
From Coq Require Import Znumtheory Setoid Morphisms Permutation.
From Verif Require Import Base IdSetModel IdSetSpec IdSetProofs KeySetModel NumTheory Negacyclic Ntt Word BasisExt BasisExtProofs Rows RlweModel KeyGenModel SchemeSpec ExtProd ExtProps Galois KeyGenProofs CtModel CtSpec CtProofs EncDecProofs KeySwitchModel Digits KsLoops RotProofs ConjProofs MulProofs FloatModel CkksFloat CkksModel BfvModel PropsEnc BfvMulProofs Determ DetermOps DetermMul.
Open Scope Z_scope.

Lemma perm_filter (p p' : string -> bool) l l' : Permutation l l' -> NoDup l -> (forall x, p x = p' x) -> Permutation (filter p l) (filter p' l') /\ NoDup (filter p l).
Proof.
  intros P ND E. split; [|apply NoDup_filter; exact ND]. apply NoDup_Permutation; [apply NoDup_filter; exact ND|apply NoDup_filter, (Permutation_NoDup P ND)|].
  intros x. rewrite !filter_In, E. split; intros [A B]; (split; [|exact B]); [apply (Permutation_in _ P A)|apply (Permutation_in _ (Permutation_sym P) A)].
Qed.

Section Lin.
  Context {N : nat} (pp : rparams).
  Notation R := (R N). Notation ct := (ctT N). Notation ckct := (ckct N). Notation order := IdSetModel.order. Notation eqc := (@eqc N). Notation L := (maxLevel pp).

  (** the same components and scale *)
  Definition eqk (u v : ckct) : Prop := eqc (cv u) (cv v) /\ csc u = csc v.
  (** the same buffers of the evaluator *)
  Definition eqs (s t : evalst N) : Prop := eqc (ctxtPool s) (ctxtPool t) /\ polyQPool s = polyQPool t.

  Lemma own_ext (G G' : string -> poly N -> res (poly N)) l (c : ct) : (forall id q, G' id q = G id q) -> rfold (own G') l c = rfold (own G) l c.
  Proof. intros H. apply rfold_extI. intros w id _. unfold own. destruct (cget w id); cbn [rbind]; [|reflexivity]. rewrite H. reflexivity. Qed.
  Lemma own_step G (u v w : ct) x : eqc u v -> own G u x = Ok w -> exists w', own G v x = Ok w' /\ eqc w w' /\ (mwf u -> mwf w) /\ (mwf v -> mwf w').
  Proof.
    intros Q H. apply own_inv in H as (q & p & H1 & H2 & ->). rewrite (Q x) in H1. exists (cset v x p). split; [apply (own_fwd G v x q p H1 H2)|]. split; [apply eqc_cset; exact Q|]. split; intros M; apply mwf_mset; exact M.
  Qed.
  Lemma ids_dir (o o' : order) k (u v : ct) ids : order_ok o -> order_ok o' -> eqc u v -> IDSetOf (o k) u = Ok ids ->
    exists ids', IDSetOf (o' k) v = Ok ids' /\ (forall x, is_has ids x = is_has ids' x) /\ forall m, Permutation (o m (keys ids)) (o' m (keys ids')) /\ NoDup (o m (keys ids)).
  Proof.
    intros O O' Q H. destruct (ids_perm (o k) (o' k) (o 0%nat) (o' 0%nat) u v ids ltac:(intros ?; apply O) ltac:(intros ?; apply O') ltac:(intros ?; apply O) ltac:(intros ?; apply O') Q H) as (ids' & A & _ & _ & _ & S & M & M').
    exists ids'. split; [exact A|]. split; [exact S|]. intros m. destruct (ids_perm (o k) (o' k) (o m) (o' m) u v ids ltac:(intros ?; apply O) ltac:(intros ?; apply O') ltac:(intros ?; apply O) ltac:(intros ?; apply O') Q H) as (i & A' & P & ND & _).
    assert (i = ids') by congruence. subst i. split; assumption.
  Qed.
  Lemma New_mwf o (ids : idset) level : mwf (NewCiphertext (N := N) o ids level).
  Proof. unfold NewCiphertext. apply fold_cset_mwf. apply mwf_mset. constructor. Qed.

  (** the union of the identities *)
  Lemma union_dir (o o' : order) k0 k1 ku (c0 c0' c1 c1' : ct) i0 i1 ids : order_ok o -> order_ok o' -> eqc c0 c0' -> eqc c1 c1' -> IDSetOf (o k0) c0 = Ok i0 -> IDSetOf (o k1) c1 = Ok i1 -> is_union o ku i0 i1 = Ok ids ->
    exists i0' i1' ids', IDSetOf (o' k0) c0' = Ok i0' /\ IDSetOf (o' k1) c1' = Ok i1' /\ is_union o' ku i0' i1' = Ok ids' /\ forall m, Permutation (o m (keys ids)) (o' m (keys ids')).
  Proof.
    intros O O' Q0 Q1 H0 H1 HU.
    assert (RP : forall o (c : ct), ord1_ok o -> exists ids, IDSetOf o c = Ok ids /\ IdSetProofs.rep ids (fun x => x <> id0 /\ In x (keys c))).
    { intros oo c OO. destruct (IDSetOf_ok oo c OO) as (j & A & M & B). exists j. split; [exact A|]. assert (X : forall x, In x (keys j) <-> x <> id0 /\ In x (keys c)) by (intros x; rewrite <- (B x); unfold is_has; rewrite mhas_In; reflexivity).
      split; [exact M|]. split; [rewrite X; tauto|exact X]. }
    destruct (RP (o k0) c0 ltac:(intros ?; apply O)) as (j0 & A0 & B0). destruct (RP (o k1) c1 ltac:(intros ?; apply O)) as (j1 & A1 & B1). assert (j0 = i0) by congruence. assert (j1 = i1) by congruence. subst j0 j1.
    destruct (RP (o' k0) c0' ltac:(intros ?; apply O')) as (i0' & A0' & B0'). destruct (RP (o' k1) c1' ltac:(intros ?; apply O')) as (i1' & A1' & B1').
    destruct (rep_union o O ku i0 _ i1 _ B0 B1) as (w & AU & RU). assert (w = ids) by congruence. subst w. destruct (rep_union o' O' ku i0' _ i1' _ B0' B1') as (ids' & AU' & RU').
    exists i0', i1', ids'. split; [exact A0'|]. split; [exact A1'|]. split; [exact AU'|]. intros m.
    eapply Permutation_trans; [apply O|]. eapply Permutation_trans; [|apply Permutation_sym; apply O']. apply NoDup_Permutation; [apply RU|apply RU'|].
    intros x. rewrite (proj2 (proj2 RU) x), (proj2 (proj2 RU') x), (eqc_keys c0 c0' x Q0), (eqc_keys c1 c1' x Q1). reflexivity.
  Qed.

  (** ** BFV *)
  Lemma bNew_dir (o o' : order) (c0 c0' c1 c1' out : ct) : order_ok o -> order_ok o' -> eqc c0 c0' -> eqc c1 c1' -> bNewBinary pp o c0 c1 = Ok out -> exists out', bNewBinary pp o' c0' c1' = Ok out' /\ eqc out out'.
  Proof.
    intros O O' Q0 Q1 H. unfold bNewBinary in *. apply rbind_ok in H as (i0 & H0 & H). apply rbind_ok in H as (i1 & H1 & H). apply rbind_ok in H as (ids & HU & H). injection H as <-.
    destruct (union_dir o o' 20 21 22 c0 c0' c1 c1' i0 i1 ids O O' Q0 Q1 H0 H1 HU) as (i0' & i1' & ids' & A & B & C & P). rewrite A. cbn [rbind]. rewrite B. cbn [rbind]. rewrite C. cbn [rbind]. eexists. split; [reflexivity|]. apply New_eqc. apply P.
  Qed.
  Definition fullG (ev : modulus -> R -> R -> R) (c0 c1 : ct) (id : string) (q : poly N) : res (poly N) :=
    a <- cgetL c0 id L ;; b <- cgetL c1 id L ;; (if (length (prows q) <=? L)%nat then Panic else Ok (Pol (lvlQ2 pp L ev (prows a) (prows b)) (pntt q))).
  Lemma full_own ev (c0 c1 v : ct) id : bFull2 pp ev c0 c1 v id = own (fullG ev c0 c1) v id.
  Proof.
    unfold bFull2, own, fullG. destruct (cgetL c0 id L); cbn [rbind]; [|destruct (cget v id); reflexivity]. destruct (cgetL c1 id L); cbn [rbind]; [|destruct (cget v id); reflexivity].
    unfold cgetL. destruct (cget v id) as [q|]; cbn [rbind]; [|reflexivity]. destruct (length (prows q) <=? L)%nat; reflexivity.
  Qed.
  Definition evG ev (i0 i1 : idset) (c0 c1 : ct) (id : string) (q : poly N) : res (poly N) :=
    if negb (is_has i0 id) then p <- cget c1 id ;; Ok (polyCopy q p) else if negb (is_has i1 id) then p <- cget c0 id ;; Ok (polyCopy q p) else fullG ev c0 c1 id q.
  Lemma bEval_own (o : order) (c0 c1 out : ct) ev : bEvaluateInPlace pp o c0 c1 out ev =
    ids0 <- IDSetOf (o 0%nat) c0 ;; ids1 <- IDSetOf (o 1%nat) c1 ;; out <- own (fullG ev c0 c1) out id0 ;; idso <- IDSetOf (o 2%nat) out ;; rfold (own (evG ev ids0 ids1 c0 c1)) (o 3%nat (keys idso)) out.
  Proof.
    unfold bEvaluateInPlace. destruct (IDSetOf (o 0%nat) c0) as [i0|]; cbn [rbind]; [|reflexivity]. destruct (IDSetOf (o 1%nat) c1) as [i1|]; cbn [rbind]; [|reflexivity]. rewrite full_own. destruct (own _ out id0) as [w|]; cbn [rbind]; [|reflexivity].
    destruct (IDSetOf (o 2%nat) w) as [io|]; cbn [rbind]; [|reflexivity]. apply rfold_extI. intros v id _. rewrite full_own. unfold own, evG. destruct (negb (is_has i0 id)); [destruct (cget v id); cbn [rbind]; [|reflexivity]; destruct (cget c1 id); reflexivity|].
    destruct (negb (is_has i1 id)); [destruct (cget v id); cbn [rbind]; [|reflexivity]; destruct (cget c0 id); reflexivity|reflexivity].
  Qed.
  Lemma fullG_eqc ev (c0 c0' c1 c1' : ct) id q : eqc c0 c0' -> eqc c1 c1' -> fullG ev c0' c1' id q = fullG ev c0 c1 id q.
  Proof. intros Q0 Q1. unfold fullG. rewrite (eqc_cgetL c0 c0' id L Q0), (eqc_cgetL c1 c1' id L Q1). reflexivity. Qed.
  Lemma bEval_dir (o o' : order) (c0 c0' c1 c1' out out' v : ct) ev : order_ok o -> order_ok o' -> eqc c0 c0' -> eqc c1 c1' -> eqc out out' -> bEvaluateInPlace pp o c0 c1 out ev = Ok v -> exists v', bEvaluateInPlace pp o' c0' c1' out' ev = Ok v' /\ eqc v v'.
  Proof.
    intros O O' Q0 Q1 QO H. rewrite bEval_own in H. rewrite bEval_own. apply rbind_ok in H as (i0 & H0 & H). apply rbind_ok in H as (i1 & H1 & H).
    destruct (ids_dir o o' 0 c0 c0' i0 O O' Q0 H0) as (i0' & H0' & S0 & _). destruct (ids_dir o o' 1 c1 c1' i1 O O' Q1 H1) as (i1' & H1' & S1 & _). rewrite H0'. cbn [rbind]. rewrite H1'. cbn [rbind].
    apply rbind_ok in H as (w & HW & H). destruct (own_step _ out out' w id0 QO HW) as (w' & HW' & QW & _).
    assert (E : own (fullG ev c0' c1') out' id0 = own (fullG ev c0 c1) out' id0) by (unfold own; destruct (cget out' id0); cbn [rbind]; [rewrite (fullG_eqc ev c0 c0' c1 c1' id0 _ Q0 Q1)|]; reflexivity). rewrite E, HW'. cbn [rbind].
    apply rbind_ok in H as (io & HI & H). destruct (ids_dir o o' 2 w w' io O O' QW HI) as (io' & HI' & _ & P). rewrite HI'. cbn [rbind]. destruct (P 3%nat) as [P3 ND].
    rewrite (own_ext (evG ev i0 i1 c0 c1) (evG ev i0' i1' c0' c1')).
    2:{ intros id q. unfold evG. rewrite (S0 id), (S1 id), (eqc_cget c0 c0' id Q0), (eqc_cget c1 c1' id Q1), (fullG_eqc ev c0 c0' c1 c1' id q Q0 Q1). reflexivity. }
    exact (own_dir _ _ _ w w' P3 ND QW v H).
  Qed.
  Theorem bAddNew_dir (o o' : order) (c0 c0' c1 c1' : ct) : order_ok o -> order_ok o' -> eqc c0 c0' -> eqc c1 c1' -> dir eqc (bAddNew pp o c0 c1) (bAddNew pp o' c0' c1').
  Proof.
    intros O O' Q0 Q1 v H. unfold bAddNew in *. apply rbind_ok in H as (out & HO & H). destruct (bNew_dir o o' c0 c0' c1 c1' out O O' Q0 Q1 HO) as (out' & HO' & QO). rewrite HO'. cbn [rbind]. exact (bEval_dir o o' c0 c0' c1 c1' out out' v r_add O O' Q0 Q1 QO H).
  Qed.
  Definition negG (id : string) (q : poly N) : res (poly N) := if (length (prows q) <=? L)%nat then Panic else Ok (Pol (lvlQ1 pp L r_neg (prows q)) (pntt q)).
  Theorem bSubNew_dir (o o' : order) (c0 c0' c1 c1' : ct) : order_ok o -> order_ok o' -> eqc c0 c0' -> eqc c1 c1' -> dir eqc (bSubNew pp o c0 c1) (bSubNew pp o' c0' c1').
  Proof.
    intros O O' Q0 Q1 v H. unfold bSubNew in *. apply rbind_ok in H as (out & HO & H). destruct (bNew_dir o o' c0 c0' c1 c1' out O O' Q0 Q1 HO) as (out' & HO' & QO). rewrite HO'. cbn [rbind].
    apply rbind_ok in H as (w & HW & H). destruct (bEval_dir o o' c0 c0' c1 c1' out out' w r_sub O O' Q0 Q1 QO HW) as (w' & HW' & QW). rewrite HW'. cbn [rbind].
    apply rbind_ok in H as (i0 & H0 & H). destruct (ids_dir o o' 30 c0 c0' i0 O O' Q0 H0) as (i0' & H0' & S0 & _). rewrite H0'. cbn [rbind].
    apply rbind_ok in H as (io & HI & H). destruct (ids_dir o o' 31 w w' io O O' QW HI) as (io' & HI' & _ & P). rewrite HI'. cbn [rbind]. destruct (P 32%nat) as [P3 ND].
    assert (F : forall (i : idset) l (c : ct), rfold (fun v id => if negb (is_has i id) then p <- cgetL v id L ;; Ok (cset v id (Pol (lvlQ1 pp L r_neg (prows p)) (pntt p))) else Ok v) l c = rfold (own negG) (filter (fun x => negb (is_has i x)) l) c).
    { intros i l c. rewrite (rfold_only (fun x => negb (is_has i x))). apply rfold_extI. intros u id _. unfold own, negG, cgetL. destruct (cget u id) as [q|]; cbn [rbind]; [|reflexivity]. destruct (length (prows q) <=? L)%nat; reflexivity. }
    rewrite F in H. rewrite F. destruct (perm_filter (fun x => negb (is_has i0 x)) (fun x => negb (is_has i0' x)) _ _ P3 ND ltac:(intros x; cbv beta; rewrite (S0 x); reflexivity)) as [P4 ND4].
    exact (own_dir _ _ _ w w' P4 ND4 QW v H).
  Qed.

  (** ** CKKS *)
  Lemma DropLevel_dir o o' (c c' : ckct) levels v : ord1_ok o -> ord1_ok o' -> mwf (cv c) -> mwf (cv c') -> eqk c c' -> DropLevel pp o c levels = Ok v -> exists v', DropLevel pp o' c' levels = Ok v' /\ eqk v v' /\ mwf (cv v) /\ mwf (cv v').
  Proof.
    intros O O' M M' [Q S] H. unfold DropLevel in *. apply rbind_ok in H as (l & HL & H). rewrite <- (eqc_level _ _ Q), HL. cbn [rbind]. destruct (Datatypes.S l <? levels)%nat; [discriminate|].
    apply rbind_ok in H as (w & HW & H). injection H as <-. destruct (keys_perm (cv c) (cv c') o o' O O' M M' Q) as [P ND].
    destruct (own_dir (fun _ p => cutRows pp (Datatypes.S l - levels) p) _ _ (cv c) (cv c') P ND Q w HW) as (w' & HW' & QW). unfold own in HW'. rewrite HW'. cbn [rbind]. eexists. split; [reflexivity|]. split; [split; [exact QW|exact S]|]. cbn [cv].
    split; [apply (own_mwf _ _ _ _ HW M)|exact (own_mwf (fun _ p => cutRows pp (Datatypes.S l - levels) p) _ _ _ HW' M')].
  Qed.
  Lemma ckCopyNew_dir o o' (c c' : ckct) v : ord1_ok o -> ord1_ok o' -> mwf (cv c) -> mwf (cv c') -> In id0 (keys (cv c)) -> eqk c c' -> ckCopyNew o c = Ok v -> exists v', ckCopyNew o' c' = Ok v' /\ eqk v v' /\ mwf (cv v) /\ mwf (cv v').
  Proof.
    intros O O' M M' I [Q S] H. unfold ckCopyNew in *. destruct (CopyNew_dir o o' (cv c) (cv c') O O' M M' I Q) as (d & d' & A & A' & B & B' & _ & D). rewrite A in H. rewrite A'. cbn [rbind] in *. injection H as <-. eexists. split; [reflexivity|]. split; [split; [exact D|exact S]|]. split; assumption.
  Qed.
  Lemma MultByConst_dir o o' (c c' out out' v : ckct) k : ord1_ok o -> ord1_ok o' -> mwf (cv c) -> mwf (cv c') -> eqk c c' -> eqc (cv out) (cv out') -> MultByConst pp o c k out = Ok v ->
    exists v', MultByConst pp o' c' k out' = Ok v' /\ eqk v v' /\ (mwf (cv out) -> mwf (cv v)) /\ (mwf (cv out') -> mwf (cv v')).
  Proof.
    intros O O' M M' [Q S] QO H. unfold MultByConst in *. apply rbind_ok in H as (l0 & HL & H). rewrite <- (eqc_level _ _ Q), HL. cbn [rbind]. apply rbind_ok in H as (lo & HLo & H). rewrite <- (eqc_level _ _ QO), HLo. cbn [rbind]. cbv zeta in *.
    destruct (getConstAndScale pp (Nat.min l0 lo) k) as [[cr ci] sc]. apply rbind_ok in H as (cs & HC & H). rewrite HC. cbn [rbind]. set (level := Nat.min l0 lo) in *.
    pose (G := fun (id : string) (q : poly N) => p0 <- cgetL (cv c) id level ;; rows <- wrLvl level (tab (Datatypes.S level) (fun i => halves_row (Qi pp i) (nth i cs (0, 0)) (row (prows p0) i))) (prows q) ;; Ok (Pol rows (pntt q))).
    assert (F : forall l (a : ct), rfold (fun c1 id => p0 <- cgetL (cv c) id level ;; p1 <- cget c1 id ;; rows <- wrLvl level (tab (Datatypes.S level) (fun i => halves_row (Qi pp i) (nth i cs (0, 0)) (row (prows p0) i))) (prows p1) ;; Ok (cset c1 id (Pol rows (pntt p1)))) l a = rfold (own G) l a).
    { intros l a. apply rfold_extI. intros w id _. unfold own, G. destruct (cgetL (cv c) id level); cbn [rbind]; [|destruct (cget w id); reflexivity]. destruct (cget w id); cbn [rbind]; [|reflexivity]. destruct (wrLvl _ _ _); reflexivity. }
    assert (F' : forall l (a : ct), rfold (fun c1 id => p0 <- cgetL (cv c') id level ;; p1 <- cget c1 id ;; rows <- wrLvl level (tab (Datatypes.S level) (fun i => halves_row (Qi pp i) (nth i cs (0, 0)) (row (prows p0) i))) (prows p1) ;; Ok (cset c1 id (Pol rows (pntt p1)))) l a = rfold (own G) l a).
    { intros l a. rewrite <- F. apply rfold_extI. intros w id _. rewrite (eqc_cgetL (cv c) (cv c') id level Q). reflexivity. }
    rewrite F in H. rewrite F'. apply rbind_ok in H as (w & HW & H). injection H as <-. destruct (keys_perm (cv c) (cv c') o o' O O' M M' Q) as [P ND]. destruct (own_dir G _ _ (cv out) (cv out') P ND QO w HW) as (w' & HW' & QW). rewrite HW'. cbn [rbind].
    eexists. split; [reflexivity|]. split; [split; [exact QW|cbn [csc]; rewrite S; reflexivity]|]. cbn [cv]. split; intros X; [apply (own_mwf _ _ _ _ HW X)|apply (own_mwf _ _ _ _ HW' X)].
  Qed.
  Lemma pad_get (z : poly N) (old : idset) l : forall (c : ct) x, mget seq_dec (fold_left (fun c id => if is_has old id then c else cset c id z) l c) x = if in_dec seq_dec x l then (if is_has old x then mget seq_dec c x else Some z) else mget seq_dec c x.
  Proof.
    induction l as [|y l IH]; intros c x; cbn [fold_left]; [reflexivity|]. rewrite IH. destruct (in_dec seq_dec x l) as [I|I], (in_dec seq_dec x (y :: l)) as [J|J].
    - destruct (is_has old x) eqn:E; [|reflexivity]. destruct (is_has old y) eqn:E'; [reflexivity|]. unfold cset. rewrite mget_mset_neq; [reflexivity|]. intros ->. congruence.
    - exfalso. apply J. right. exact I.
    - destruct J as [->|J]; [|contradiction]. destruct (is_has old x); [reflexivity|]. unfold cset. rewrite mget_mset_eq. reflexivity.
    - destruct (is_has old y); [reflexivity|]. unfold cset. rewrite mget_mset_neq; [reflexivity|]. intros ->. apply J. left. reflexivity.
  Qed.
  Lemma Pad_dir (o o' : order) (c c' : ct) (ids ids' : idset) v : order_ok o -> order_ok o' -> eqc c c' -> (forall m, Permutation (o m (keys ids)) (o' m (keys ids'))) -> PadCiphertext o c ids = Ok v -> exists v', PadCiphertext o' c' ids' = Ok v' /\ eqc v v'.
  Proof.
    intros O O' Q P H. unfold PadCiphertext in *. apply rbind_ok in H as (p0 & HP & H). rewrite <- (eqc_cget c c' id0 Q), HP. cbn [rbind]. apply rbind_ok in H as (old & HO & H). destruct (ids_dir o o' 0 c c' old O O' Q HO) as (old' & HO' & S & _). rewrite HO'. cbn [rbind].
    injection H as <-. eexists. split; [reflexivity|]. intros x. rewrite !pad_get, <- (S x), (Q x). destruct (in_dec seq_dec x (o 1%nat (keys ids))) as [I|I], (in_dec seq_dec x (o' 1%nat (keys ids'))) as [J|J]; try reflexivity; exfalso.
    - apply J. apply (Permutation_in _ (P 1%nat) I).
    - apply I. apply (Permutation_in _ (Permutation_sym (P 1%nat)) J).
  Qed.

  Definition ckG ev level (i0 i1 : idset) (t0 t1 : ct) (id : string) (p : poly N) : res (poly N) :=
    if negb (is_has i0 id) then q <- cgetL t1 id level ;; rows <- wrLvl level (prows q) (prows p) ;; Ok (Pol rows (pntt p))
    else if negb (is_has i1 id) then q <- cgetL t0 id level ;; rows <- wrLvl level (prows q) (prows p) ;; Ok (Pol rows (pntt p))
    else a <- cgetL t0 id level ;; b <- cgetL t1 id level ;; rows <- wrLvl level (lvlQ2 pp level ev (prows a) (prows b)) (prows p) ;; Ok (Pol rows (pntt p)).
  Lemma ck_own ev level i0 i1 (t0 t1 : ct) l (v : ct) :
    rfold (fun v id => p <- cget v id ;;
           if negb (is_has i0 id) then q <- cgetL t1 id level ;; rows <- wrLvl level (prows q) (prows p) ;; Ok (cset v id (Pol rows (pntt p)))
           else if negb (is_has i1 id) then q <- cgetL t0 id level ;; rows <- wrLvl level (prows q) (prows p) ;; Ok (cset v id (Pol rows (pntt p)))
           else a <- cgetL t0 id level ;; b <- cgetL t1 id level ;; rows <- wrLvl level (lvlQ2 pp level ev (prows a) (prows b)) (prows p) ;; Ok (cset v id (Pol rows (pntt p)))) l v
    = rfold (own (ckG ev level i0 i1 t0 t1)) l v.
  Proof.
    apply rfold_extI. intros w id _. unfold own, ckG. destruct (cget w id) as [p|]; cbn [rbind]; [|reflexivity]. destruct (negb (is_has i0 id)); [destruct (cgetL t1 id level); cbn [rbind]; [|reflexivity]; destruct (wrLvl _ _ _); reflexivity|].
    destruct (negb (is_has i1 id)); [destruct (cgetL t0 id level); cbn [rbind]; [|reflexivity]; destruct (wrLvl _ _ _); reflexivity|].
    destruct (cgetL t0 id level); cbn [rbind]; [|reflexivity]. destruct (cgetL t1 id level); cbn [rbind]; [|reflexivity]. destruct (wrLvl _ _ _); reflexivity.
  Qed.
  Lemma ckG_eqc ev level i0 i1 i0' i1' (t0 t0' t1 t1' : ct) : (forall x, is_has i0 x = is_has i0' x) -> (forall x, is_has i1 x = is_has i1' x) -> eqc t0 t0' -> eqc t1 t1' -> forall id p, ckG ev level i0' i1' t0' t1' id p = ckG ev level i0 i1 t0 t1 id p.
  Proof. intros S0 S1 Q0 Q1 id p. unfold ckG. rewrite (S0 id), (S1 id), (eqc_cgetL t0 t0' id level Q0), (eqc_cgetL t1 t1' id level Q1). reflexivity. Qed.

  Lemma evaluateInPlace_dir (o o' : order) (st st' : evalst N) (c0 c0' c1 c1' out out' : ckct) ev r : order_ok o -> order_ok o' -> mwf (cv c0) -> mwf (cv c0') -> mwf (cv c1) -> mwf (cv c1') -> mwf (cv out) -> mwf (cv out') ->
    eqs st st' -> eqk c0 c0' -> eqk c1 c1' -> eqk out out' -> evaluateInPlace pp o st c0 c1 out ev = Ok r -> exists r', evaluateInPlace pp o' st' c0' c1' out' ev = Ok r' /\ eqs (fst r) (fst r') /\ eqk (snd r) (snd r').
  Proof.
    intros O O' M0 M0' M1 M1' MO MO' [ST PQ] K0 K1 KO H. pose proof K0 as [Q0 S0]. pose proof K1 as [Q1 S1]. unfold evaluateInPlace in *.
    apply rbind_ok in H as (i0 & H0 & H). apply rbind_ok in H as (i1 & H1 & H). apply rbind_ok in H as (ids & HU & H).
    destruct (union_dir o o' 0 1 2 _ _ _ _ i0 i1 ids O O' Q0 Q1 H0 H1 HU) as (i0' & i1' & ids' & H0' & H1' & HU' & PU). rewrite H0'. cbn [rbind]. rewrite H1'. cbn [rbind]. rewrite HU'. cbn [rbind].
    destruct (ids_dir o o' 0 _ _ i0 O O' Q0 H0) as (j0 & J0 & HS0 & _). assert (j0 = i0') by congruence. subst j0. destruct (ids_dir o o' 1 _ _ i1 O O' Q1 H1) as (j1 & J1 & HS1 & _). assert (j1 = i1') by congruence. subst j1.
    apply rbind_ok in H as (pool & HP & H). destruct (Pad_dir (fun n => o (10 + n)%nat) (fun n => o' (10 + n)%nat) _ _ ids ids' pool ltac:(intros n l; apply O) ltac:(intros n l; apply O') ST ltac:(intros m; apply PU) HP) as (pool' & HP' & QP). rewrite HP'. cbn [rbind].
    apply rbind_ok in H as (l0 & HL0 & H). rewrite <- (eqc_level _ _ Q0), HL0. cbn [rbind]. apply rbind_ok in H as (l1 & HL1 & H). rewrite <- (eqc_level _ _ Q1), HL1. cbn [rbind].
    apply rbind_ok in H as (lo & HLo & H). rewrite <- (eqc_level _ _ (proj1 KO)), HLo. cbn [rbind]. cbv zeta in *. set (level := Nat.min (Nat.min l0 l1) lo) in *.
    apply rbind_ok in H as (w & HW & H).
    assert (X : exists w', (if (level <? lo)%nat then DropLevel pp (o' 4%nat) out' (lo - Nat.min l0 l1) else Ok out') = Ok w' /\ eqk w w').
    { destruct (level <? lo)%nat.
      - destruct (DropLevel_dir (o 4%nat) (o' 4%nat) out out' _ w ltac:(intros ?; apply O) ltac:(intros ?; apply O') MO MO' KO HW) as (w' & A & B & _). exists w'. split; assumption.
      - exists out'. split; [reflexivity|]. assert (out = w) by congruence. subst w. exact KO. }
    destruct X as (w' & HW' & KW). rewrite HW'. cbn [rbind]. rewrite <- S0, <- S1, <- (proj2 KW). pose proof KW as [QW SW].
    apply rbind_ok in H as ([[pl t0] t1] & HT & H).
    set (r10 := f_floor (f_div (csc c1) (csc c0))) in *. set (r01 := f_floor (f_div (csc c0) (csc c1))) in *.
    assert (X : exists pl' t0' t1', (if f_gt (csc c1) (csc c0) && f_gt r10 f_one then p <- MultByConst pp (o' 5%nat) c0' (CFloat r10) (CK pool' (csc w)) ;; Ok (cv p, cv p, cv c1')
       else if f_gt (csc c0) (csc c1) && f_gt r01 f_one then p <- MultByConst pp (o' 5%nat) c1' (CFloat r01) (CK pool' (csc w)) ;; Ok (cv p, cv c0', cv p) else Ok (pool', cv c0', cv c1')) = Ok (pl', t0', t1') /\ eqc pl pl' /\ eqc t0 t0' /\ eqc t1 t1').
    { destruct (f_gt (csc c1) (csc c0) && f_gt r10 f_one).
      - apply rbind_ok in HT as (p & HPP & HT). destruct (MultByConst_dir (o 5%nat) (o' 5%nat) c0 c0' (CK pool (csc w)) (CK pool' (csc w)) p (CFloat r10) ltac:(intros ?; apply O) ltac:(intros ?; apply O') M0 M0' K0 QP HPP) as (p' & A & B & _). rewrite A. cbn [rbind].
        eexists _, _, _. split; [reflexivity|]. assert (E1 : pl = cv p) by congruence. assert (E2 : t0 = cv p) by congruence. assert (E3 : t1 = cv c1) by congruence. subst. split; [apply B|]. split; [apply B|exact Q1].
      - destruct (f_gt (csc c0) (csc c1) && f_gt r01 f_one).
        + apply rbind_ok in HT as (p & HPP & HT). destruct (MultByConst_dir (o 5%nat) (o' 5%nat) c1 c1' (CK pool (csc w)) (CK pool' (csc w)) p (CFloat r01) ltac:(intros ?; apply O) ltac:(intros ?; apply O') M1 M1' K1 QP HPP) as (p' & A & B & _). rewrite A. cbn [rbind].
          eexists _, _, _. split; [reflexivity|]. assert (E1 : pl = cv p) by congruence. assert (E2 : t0 = cv c0) by congruence. assert (E3 : t1 = cv p) by congruence. subst. split; [apply B|]. split; [exact Q0|apply B].
        + eexists _, _, _. split; [reflexivity|]. assert (E1 : pl = pool) by congruence. assert (E2 : t0 = cv c0) by congruence. assert (E3 : t1 = cv c1) by congruence. subst. split; [exact QP|]. split; assumption. }
    destruct X as (pl' & t0' & t1' & HT' & QPl & QT0 & QT1). rewrite HT'. cbn [rbind].
    apply rbind_ok in H as (a0 & HA & H). rewrite <- (eqc_cgetL t0 t0' id0 level QT0), HA. cbn [rbind]. apply rbind_ok in H as (b0 & HB & H). rewrite <- (eqc_cgetL t1 t1' id0 level QT1), HB. cbn [rbind].
    apply rbind_ok in H as (p & HPp & H). rewrite <- (eqc_cget _ _ id0 QW), HPp. cbn [rbind]. apply rbind_ok in H as (rows & HR & H). rewrite HR. cbn [rbind].
    pose proof (eqc_cset _ _ id0 (Pol rows (pntt p)) QW) as QV. apply rbind_ok in H as (io & HI & H). destruct (ids_dir o o' 6 _ _ io O O' QV HI) as (io' & HI' & _ & PI). rewrite HI'. cbn [rbind]. destruct (PI 7%nat) as [P7 ND7].
    rewrite ck_own in H. rewrite ck_own. rewrite (own_ext (ckG ev level i0 i1 t0 t1) _ _ _ (ckG_eqc ev level i0 i1 i0' i1' t0 t0' t1 t1' HS0 HS1 QT0 QT1)).
    apply rbind_ok in H as (v & HV & H). injection H as <-. destruct (own_dir _ _ _ _ _ P7 ND7 QV v HV) as (v' & HV' & QV'). rewrite HV'. cbn [rbind]. eexists. split; [reflexivity|]. cbn [fst snd]. split; [split; [exact QPl|exact PQ]|split; [exact QV'|reflexivity]].
  Qed.
  Lemma newBin_dir (o o' : order) (c0 c0' c1 c1' v : ckct) : order_ok o -> order_ok o' -> eqk c0 c0' -> eqk c1 c1' -> newCiphertextBinary o c0 c1 = Ok v -> exists v', newCiphertextBinary o' c0' c1' = Ok v' /\ eqk v v' /\ mwf (cv v) /\ mwf (cv v').
  Proof.
    intros O O' [Q0 S0] [Q1 S1] H. unfold newCiphertextBinary in *. apply rbind_ok in H as (l0 & HL0 & H). rewrite <- (eqc_level _ _ Q0), HL0. cbn [rbind]. apply rbind_ok in H as (l1 & HL1 & H). rewrite <- (eqc_level _ _ Q1), HL1. cbn [rbind].
    apply rbind_ok in H as (i0 & H0 & H). apply rbind_ok in H as (i1 & H1 & H). apply rbind_ok in H as (ids & HU & H). injection H as <-.
    destruct (union_dir o o' 20 21 22 _ _ _ _ i0 i1 ids O O' Q0 Q1 H0 H1 HU) as (i0' & i1' & ids' & A & B & C & P). rewrite A. cbn [rbind]. rewrite B. cbn [rbind]. rewrite C. cbn [rbind]. eexists. split; [reflexivity|].
    split; [split; [apply New_eqc; apply P|cbn [ckNew csc]; rewrite S0, S1; reflexivity]|]. split; apply New_mwf.
  Qed.
  Definition eqsk (r r' : evalst N * ckct) : Prop := eqs (fst r) (fst r') /\ eqk (snd r) (snd r').
  Theorem AddNew_dir (o o' : order) (st st' : evalst N) (c0 c0' c1 c1' : ckct) : order_ok o -> order_ok o' -> mwf (cv c0) -> mwf (cv c0') -> mwf (cv c1) -> mwf (cv c1') -> eqs st st' -> eqk c0 c0' -> eqk c1 c1' -> dir eqsk (AddNew pp o st c0 c1) (AddNew pp o' st' c0' c1').
  Proof.
    intros O O' M0 M0' M1 M1' ST K0 K1 r H. unfold AddNew in *. apply rbind_ok in H as (out & HO & H). destruct (newBin_dir o o' c0 c0' c1 c1' out O O' K0 K1 HO) as (out' & HO' & KO & MO & MO'). rewrite HO'. cbn [rbind].
    exact (evaluateInPlace_dir o o' st st' c0 c0' c1 c1' out out' r_add r O O' M0 M0' M1 M1' MO MO' ST K0 K1 KO H).
  Qed.
  Definition cnegG level (id : string) (p : poly N) : res (poly N) := rows <- wrLvl level (lvlQ1 pp level r_neg (prows p)) (prows p) ;; Ok (Pol rows (pntt p)).
  Theorem SubNew_dir (o o' : order) (st st' : evalst N) (c0 c0' c1 c1' : ckct) : order_ok o -> order_ok o' -> mwf (cv c0) -> mwf (cv c0') -> mwf (cv c1) -> mwf (cv c1') -> eqs st st' -> eqk c0 c0' -> eqk c1 c1' -> dir eqsk (SubNew pp o st c0 c1) (SubNew pp o' st' c0' c1').
  Proof.
    intros O O' M0 M0' M1 M1' ST K0 K1 r H. unfold SubNew in *. apply rbind_ok in H as (out & HO & H). destruct (newBin_dir o o' c0 c0' c1 c1' out O O' K0 K1 HO) as (out' & HO' & KO & MO & MO'). rewrite HO'. cbn [rbind].
    apply rbind_ok in H as ([s1 w] & HE & H). destruct (evaluateInPlace_dir o o' st st' c0 c0' c1 c1' out out' r_sub _ O O' M0 M0' M1 M1' MO MO' ST K0 K1 KO HE) as ([s1' w'] & HE' & ES & [QW SW]). rewrite HE'. cbn [rbind fst snd] in *.
    apply rbind_ok in H as (l0 & HL0 & H). rewrite <- (eqc_level _ _ (proj1 K0)), HL0. cbn [rbind]. apply rbind_ok in H as (l1 & HL1 & H). rewrite <- (eqc_level _ _ (proj1 K1)), HL1. cbn [rbind]. apply rbind_ok in H as (lo & HLo & H). rewrite <- (eqc_level _ _ QW), HLo. cbn [rbind]. cbv zeta in *.
    set (level := Nat.min (Nat.min l0 l1) lo) in *. apply rbind_ok in H as (i0 & H0 & H). destruct (ids_dir o o' 30 _ _ i0 O O' (proj1 K0) H0) as (i0' & H0' & S0 & _). rewrite H0'. cbn [rbind].
    apply rbind_ok in H as (io & HI & H). destruct (ids_dir o o' 31 _ _ io O O' QW HI) as (io' & HI' & _ & P). rewrite HI'. cbn [rbind]. destruct (P 32%nat) as [P3 ND].
    assert (F : forall (i : idset) l (c : ct), rfold (fun v id => if negb (is_has i id) then p <- cget v id ;; rows <- wrLvl level (lvlQ1 pp level r_neg (prows p)) (prows p) ;; Ok (cset v id (Pol rows (pntt p))) else Ok v) l c = rfold (own (cnegG level)) (filter (fun x => negb (is_has i x)) l) c).
    { intros i l c. rewrite (rfold_only (fun x => negb (is_has i x))). apply rfold_extI. intros u id _. unfold own, cnegG. destruct (cget u id) as [q|]; cbn [rbind]; [|reflexivity]. destruct (wrLvl _ _ _); reflexivity. }
    rewrite F in H. rewrite F. destruct (perm_filter (fun x => negb (is_has i0 x)) (fun x => negb (is_has i0' x)) _ _ P3 ND ltac:(intros x; cbv beta; rewrite (S0 x); reflexivity)) as [P4 ND4].
    apply rbind_ok in H as (v & HV & H). injection H as <-. destruct (own_dir _ _ _ _ _ P4 ND4 QW v HV) as (v' & HV' & QV). rewrite HV'. cbn [rbind]. eexists. split; [reflexivity|]. split; [exact ES|split; [exact QV|exact SW]].
  Qed.

  Definition eqkb (r r' : ckct * bool) : Prop := eqk (fst r) (fst r') /\ snd r = snd r'.
  Definition rG nb level (src : option ct) (id : string) (q : poly N) : res (poly N) :=
    p <- (match src with Some c => cgetL c id level | None => if (length (prows q) <=? level)%nat then Panic else Ok q end) ;; (if (length (prows q) <? S level - nb)%nat then Panic else Ok (Pol (divRoundMany pp nb level (prows p)) (pntt q))).
  Theorem Rescale_dir2 o o' (c c' : ckct) ms (out out' : option ckct) : ord1_ok o -> ord1_ok o' -> eqk c c' ->
    match out, out' with None, None => mwf (cv c) /\ mwf (cv c') | Some u, Some u' => mwf (cv u) /\ mwf (cv u') /\ eqk u u' | _, _ => False end ->
    dir eqkb (Rescale pp o c ms out) (Rescale pp o' c' ms out').
  Proof.
    intros O O' K HO r H. unfold Rescale in *. pose proof K as [Q S].
    set (d := match out with Some c => c | None => c end) in *. set (d' := match out' with Some c => c | None => c' end) in *.
    assert (KD : eqk d d' /\ mwf (cv d) /\ mwf (cv d')) by (unfold d, d'; destruct out, out'; try contradiction; tauto). destruct KD as (KD & MD & MD'). pose proof KD as [QD SD].
    destruct (f_le ms f_zero); [exists (d', true); split; [reflexivity|]; injection H as <-; split; [exact KD|reflexivity]|]. rewrite <- S.
    destruct (f_eq (csc c) f_zero); [exists (d', true); split; [reflexivity|]; injection H as <-; split; [exact KD|reflexivity]|].
    apply rbind_ok in H as (level & HL & H). rewrite <- (eqc_level _ _ Q), HL. cbn [rbind].
    destruct (level =? 0)%nat; [exists (d', true); split; [reflexivity|]; injection H as <-; split; [exact KD|reflexivity]|].
    apply rbind_ok in H as ([s nb] & HR & H). rewrite HR. cbn [rbind]. destruct (0 <? nb)%nat; [|exists (CK (cv d') s, false); split; [reflexivity|]; injection H as <-; split; [split; [exact QD|reflexivity]|reflexivity]].
    pose (src := match out with Some _ => Some (cv c) | None => None end).
    assert (F : forall l (b : ct), rfold (fun v id => p <- cgetL (match out with Some _ => cv c | None => v end) id level ;; q <- cget v id ;; (if (length (prows q) <? Datatypes.S level - nb)%nat then Panic else Ok (cset v id (Pol (divRoundMany pp nb level (prows p)) (pntt q))))) l b = rfold (own (rG nb level src)) l b).
    { intros l b. apply rfold_extI. intros w id _. unfold own, rG, src. destruct out as [u|].
      - destruct (cgetL (cv c) id level); cbn [rbind]; [|destruct (cget w id); reflexivity]. destruct (cget w id) as [q|]; cbn [rbind]; [|reflexivity]. destruct (length (prows q) <? Datatypes.S level - nb)%nat; reflexivity.
      - unfold cgetL. destruct (cget w id) as [q|]; cbn [rbind]; [|reflexivity]. destruct (length (prows q) <=? level)%nat; cbn [rbind]; [reflexivity|]. destruct (length (prows q) <? Datatypes.S level - nb)%nat; reflexivity. }
    assert (F' : forall l (b : ct), rfold (fun v id => p <- cgetL (match out' with Some _ => cv c' | None => v end) id level ;; q <- cget v id ;; (if (length (prows q) <? Datatypes.S level - nb)%nat then Panic else Ok (cset v id (Pol (divRoundMany pp nb level (prows p)) (pntt q))))) l b = rfold (own (rG nb level src)) l b).
    { intros l b. rewrite <- F. apply rfold_extI. intros w id _. destruct out, out'; try contradiction; [rewrite (eqc_cgetL _ _ id level Q)|]; reflexivity. }
    rewrite F in H. rewrite F'. apply rbind_ok in H as (w & HW & H). injection H as <-. destruct (keys_perm (cv d) (cv d') o o' O O' MD MD' QD) as [P ND]. destruct (own_dir _ _ _ _ _ P ND QD w HW) as (w' & HW' & QW). rewrite HW'. cbn [rbind].
    eexists. split; [reflexivity|]. split; [split; [exact QW|reflexivity]|reflexivity].
  Qed.
  Theorem RescaleNew_dir (o o' : order) (c c' : ckct) th : order_ok o -> order_ok o' -> eqk c c' -> dir eqkb (RescaleNew pp o c th) (RescaleNew pp o' c' th).
  Proof.
    intros O O' K r H. unfold RescaleNew in *. apply rbind_ok in H as (ids & HI & H). destruct (ids_dir o o' 0 _ _ ids O O' (proj1 K) HI) as (ids' & HI' & _ & P). rewrite HI'. cbn [rbind].
    apply rbind_ok in H as (l & HL & H). rewrite <- (eqc_level _ _ (proj1 K)), HL. cbn [rbind].
    apply (Rescale_dir2 (o 1%nat) (o' 1%nat) c c' th (Some (ckNew (o 2%nat) ids l (csc c))) (Some (ckNew (o' 2%nat) ids' l (csc c'))) ltac:(intros ?; apply O) ltac:(intros ?; apply O') K); [|exact H].
    split; [apply New_mwf|]. split; [apply New_mwf|]. split; [apply New_eqc; apply P|apply K].
  Qed.
  Theorem MulPtxtNew_dir (o o' : order) ps (st st' : evalst N) (c c' : ckct) pt sc : order_ok o -> order_ok o' -> mwf (cv c) -> mwf (cv c') -> eqs st st' -> eqk c c' -> dir eqsk (MulPtxtNew pp o ps st c pt sc) (MulPtxtNew pp o' ps st' c' pt sc).
  Proof.
    intros O O' M M' [ST PQ] K r H. pose proof K as [Q S]. unfold MulPtxtNew in *. apply rbind_ok in H as (ids & HI & H). destruct (ids_dir o o' 0 _ _ ids O O' Q HI) as (ids' & HI' & _ & PI). rewrite HI'. cbn [rbind].
    apply rbind_ok in H as (l & HL & H). rewrite <- (eqc_level _ _ Q), HL. cbn [rbind]. cbv zeta in *. destruct (length (prows pt) <=? l)%nat; [discriminate|]. rewrite <- PQ. apply rbind_ok in H as (pool & HP & H). rewrite HP. cbn [rbind].
    pose (G := fun (id : string) (q : poly N) => p <- cgetL (cv c) id l ;; Ok (Pol (lvlQ1 pp l intt (lvlQ2 pp l r_mont (lvlQ1 pp l ntt (prows p)) pool)) (pntt q))).
    assert (F : forall x (b : ct), rfold (fun v id => p <- cgetL (cv c) id l ;; q <- cget v id ;; Ok (cset v id (Pol (lvlQ1 pp l intt (lvlQ2 pp l r_mont (lvlQ1 pp l ntt (prows p)) pool)) (pntt q)))) x b = rfold (own G) x b).
    { intros x b. apply rfold_extI. intros w id _. unfold own, G. destruct (cgetL (cv c) id l); cbn [rbind]; destruct (cget w id); reflexivity. }
    assert (F' : forall x (b : ct), rfold (fun v id => p <- cgetL (cv c') id l ;; q <- cget v id ;; Ok (cset v id (Pol (lvlQ1 pp l intt (lvlQ2 pp l r_mont (lvlQ1 pp l ntt (prows p)) pool)) (pntt q)))) x b = rfold (own G) x b).
    { intros x b. rewrite <- F. apply rfold_extI. intros w id _. rewrite (eqc_cgetL _ _ id l Q). reflexivity. }
    rewrite F in H. rewrite F'. apply rbind_ok in H as (w & HW & H). destruct (keys_perm (cv c) (cv c') (o 2%nat) (o' 2%nat) ltac:(intros ?; apply O) ltac:(intros ?; apply O') M M' Q) as [P ND].
    destruct (own_dir G _ _ _ _ P ND (New_eqc (o 1%nat) (o' 1%nat) ids ids' l (proj1 (PI 1%nat)) : eqc (cv (ckNew (o 1%nat) ids l (f_mul (csc c) sc))) (cv (ckNew (o' 1%nat) ids' l (f_mul (csc c') sc)))) w HW) as (w' & HW' & QW). rewrite HW'. cbn [rbind].
    apply rbind_ok in H as ([x e] & HX & H). injection H as <-. cbn [ckNew csc cv] in *.
    destruct (Rescale_dir2 (o 3%nat) (o' 3%nat) (CK w (f_mul (csc c) sc)) (CK w' (f_mul (csc c') sc)) ps None None ltac:(intros ?; apply O) ltac:(intros ?; apply O')) with (a := (x, e)) as ([x' e'] & HX' & KX & _); [split; [exact QW|cbn [csc]; rewrite S; reflexivity]| |exact HX|].
    - cbn [cv]. split; [apply (own_mwf _ _ _ _ HW)|apply (own_mwf _ _ _ _ HW')]; apply New_mwf.
    - rewrite HX'. cbn [rbind]. eexists. split; [reflexivity|]. split; [split; [exact ST|reflexivity]|exact KX].
  Qed.
  Theorem DropLevelNew_dir (o o' : order) (c c' : ckct) levels : order_ok o -> order_ok o' -> mwf (cv c) -> mwf (cv c') -> In id0 (keys (cv c)) -> eqk c c' -> dir eqk (DropLevelNew pp o c levels) (DropLevelNew pp o' c' levels).
  Proof.
    intros O O' M M' I K v H. unfold DropLevelNew in *. apply rbind_ok in H as (d & HD & H). destruct (ckCopyNew_dir (o 0%nat) (o' 0%nat) c c' d ltac:(intros ?; apply O) ltac:(intros ?; apply O') M M' I K HD) as (d' & HD' & KD & MD & MD'). rewrite HD'. cbn [rbind].
    destruct (DropLevel_dir (o 1%nat) (o' 1%nat) d d' levels v ltac:(intros ?; apply O) ltac:(intros ?; apply O') MD MD' KD H) as (v' & A & B & _). exists v'. split; assumption.
  Qed.
End Lin.
