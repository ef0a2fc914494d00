(** C74: what evaluation returns does not depend on the iteration order of Go's maps, bit by bit.
    Specification: sameCk and sameRes below, and sameCt of PropsSum.v. *)
From Flocq Require Import Core BinarySingleNaN.
From Coq Require Import Znumtheory Setoid Morphisms Reals Lra Permutation.
From Verif Require Import Base IdSetModel IdSetSpec IdSetProofs KeySetModel NumTheory Negacyclic Ntt Word BasisExt BasisExtProofs Rows RlweModel KeyGenModel SchemeSpec ExtProd ExtProps Galois KeyGenProofs Instance CtModel CtSpec CtProofs EncDecProofs PropsEnc KeySwitchModel Digits KsLoops RotProofs ConjProofs MulProofs PropsKeySwitch IndexModel PropsIndex FloatModel CkksFloat CkksModel FloatProofs CkksFloatProofs CkksProofs CkksRescale PropsCkks PropsRescale PropsConst PropsMulRelin PropsCkksEx Slots PropsSlots PropsRotate BfvModel PropsBfv PropsSum Determ DetermOps DetermMul PropsUses.
Open Scope Z_scope.

(** the same components (the maps may be enumerated differently) and the same scale *)
Definition sameCk {N} (c c' : ckct N) : Prop := sameCt (cv c) (cv c') /\ csc c = csc c'.
(** both calls panic, or both return, and return the same *)
Definition sameRes {A} (E : A -> A -> Prop) (r r' : res A) : Prop := match r, r' with Ok a, Ok b => E a b | Panic, Panic => True | _, _ => False end.

Lemma same_eqc {N} (u v : ctT N) : sameCt u v <-> eqc u v.
Proof. split; intros H x; [apply H|]. split; [apply eqc_keys; exact H|apply H]. Qed.
Lemma sameRes_dir {A} (E : A -> A -> Prop) (Es : forall a b, E a b -> E b a) (r r' : res A) : dir E r r' -> dir E r' r -> sameRes E r r'.
Proof.
  intros H H'. destruct r as [a|]; [destruct (H a eq_refl) as (b & -> & Q); exact Q|]. destruct r' as [b|]; [|exact I]. destruct (H' b eq_refl) as (a & K & _). discriminate K.
Qed.
Lemma sameCt_sym {N} (u v : ctT N) : sameCt u v -> sameCt v u.
Proof. rewrite !same_eqc. apply eqc_sym. Qed.
Lemma sameCk_sym {N} (u v : ckct N) : sameCk u v -> sameCk v u.
Proof. intros [A B]. split; [apply sameCt_sym; exact A|symmetry; exact B]. Qed.
Lemma wfct_same {N} pp l fl (u v : ctT N) : mwf v -> sameCt u v -> wfct pp l fl u -> wfct pp l fl v.
Proof. intros M S. apply wfct_ext; [exact M|]. intros x. symmetry. apply S. Qed.

Section Dirs.
  Context {N : nat} (pp : rparams) (WF : wfp N pp).
  Notation ct := (ctT N). Notation L := (maxLevel pp). Notation order := IdSetModel.order.

  Lemma RotateNew_dir (o o' : nat -> order) crs (c c' : ckct N) k rk level fl fl' : (forall n, order_ok (o n)) -> (forall n, order_ok (o' n)) -> (level < length (Qm pp))%nat -> wfct pp level fl (cv c) -> wfct pp level fl' (cv c') -> sameCk c c' ->
    dir sameCk (RotateNew pp o crs c k rk) (RotateNew pp o' crs c' k rk).
  Proof.
    intros O O' HL W W' [S SC] v H. apply same_eqc in S. unfold RotateNew in *. apply rbind_ok in H as (ids & HI & H).
    destruct (ids_perm (o 0%nat 1%nat) (o' 0%nat 1%nat) (o 0%nat 2%nat) (o' 0%nat 2%nat) (cv c) (cv c') ids ltac:(intros ?; apply O) ltac:(intros ?; apply O') ltac:(intros ?; apply O) ltac:(intros ?; apply O') S HI) as (ids' & HI' & P & _).
    rewrite HI'. cbn [rbind]. rewrite (wfct_level pp _ _ _ W) in H. rewrite (wfct_level pp _ _ _ W'). cbn [rbind] in *. apply rbind_ok in H as (w & HW & H). injection H as <-.
    destruct (New_facts pp WF (o 0%nat 2%nat) ids level ltac:(intros ?; apply O) HL) as [M1 Z1]. destruct (New_facts pp WF (o' 0%nat 2%nat) ids' level ltac:(intros ?; apply O') HL) as [M2 _].
    destruct (rotate_dir pp WF level level o o' crs rk (cv c) (cv c') _ _ k w HL O O' (proj1 W) (proj1 W') M1 M2 S (New_eqc _ _ _ _ level P) (wfct_zok pp _ _ _ W) (proj1 (proj2 W)) Z1 eq_refl HW) as (w' & HW' & Q).
    rewrite HW'. cbn [rbind]. eexists. split; [reflexivity|]. split; [apply same_eqc; exact Q|exact SC].
  Qed.
  Lemma RotateHoistedNew_dir (o o' : nat -> order) crs (c c' : ckct N) k h rk level fl fl' : (forall n, order_ok (o n)) -> (forall n, order_ok (o' n)) -> (level < length (Qm pp))%nat -> wfct pp level fl (cv c) -> wfct pp level fl' (cv c') -> sameCk c c' ->
    dir sameCk (RotateHoistedNew pp o crs c k h rk) (RotateHoistedNew pp o' crs c' k h rk).
  Proof.
    intros O O' HL W W' [S SC] v H. apply same_eqc in S. unfold RotateHoistedNew in *. apply rbind_ok in H as (ids & HI & H).
    destruct (ids_perm (o 0%nat 1%nat) (o' 0%nat 1%nat) (o 0%nat 2%nat) (o' 0%nat 2%nat) (cv c) (cv c') ids ltac:(intros ?; apply O) ltac:(intros ?; apply O') ltac:(intros ?; apply O) ltac:(intros ?; apply O') S HI) as (ids' & HI' & P & _).
    rewrite HI'. cbn [rbind]. rewrite (wfct_level pp _ _ _ W) in H. rewrite (wfct_level pp _ _ _ W'). cbn [rbind] in *. apply rbind_ok in H as (w & HW & H). injection H as <-.
    destruct (New_facts pp WF (o 0%nat 2%nat) ids level ltac:(intros ?; apply O) HL) as [M1 Z1]. destruct (New_facts pp WF (o' 0%nat 2%nat) ids' level ltac:(intros ?; apply O') HL) as [M2 _].
    pose proof (New_eqc _ _ _ _ level P : eqc (N := N) (NewCiphertext (o 0%nat 2%nat) ids level) (NewCiphertext (o' 0%nat 2%nat) ids' level)) as QN.
    assert (X : exists w', rotateHoisted pp o' crs (cv c') k h rk (NewCiphertext (o' 0%nat 2%nat) ids' level) = Ok w' /\ eqc w w').
    { unfold rotateHoisted in *. apply rbind_ok in HW as (k1 & HK & HW). rewrite HK. cbn [rbind]. destruct (k1 =? 0).
      - exact (Copy_dir (o 0%nat 0%nat) (o' 0%nat 0%nat) _ _ (cv c) (cv c') ltac:(intros ?; apply O) ltac:(intros ?; apply O') (proj1 W) (proj1 W') S QN w HW).
      - destruct (mget Z.eq_dec crs k1); [|discriminate].
        destruct (RotateGen_dir pp WF level level (o 0%nat) (o' 0%nat) crs (Some h) (cv c) (cv c') k1 rk _ _ w HL (O _) (O' _) (proj1 W) (proj1 W') S QN (wfct_zok pp _ _ _ W) Z1 M1 M2 HW) as (w' & A & B & _). exists w'. split; assumption. }
    destruct X as (w' & HW' & Q). rewrite HW'. cbn [rbind]. eexists. split; [reflexivity|]. split; [apply same_eqc; exact Q|exact SC].
  Qed.
  Lemma ConjugateNew_dir (o o' : order) crs (c c' : ckct N) ck level fl fl' : order_ok o -> order_ok o' -> (level < length (Qm pp))%nat -> wfct pp level fl (cv c) -> wfct pp level fl' (cv c') -> sameCk c c' ->
    dir sameCk (ConjugateNew pp o crs c ck) (ConjugateNew pp o' crs c' ck).
  Proof.
    intros O O' HL W W' [S SC] v H. apply same_eqc in S. unfold ConjugateNew in *. apply rbind_ok in H as (ids & HI & H).
    destruct (ids_perm (o 60%nat) (o' 60%nat) (o 61%nat) (o' 61%nat) (cv c) (cv c') ids ltac:(intros ?; apply O) ltac:(intros ?; apply O') ltac:(intros ?; apply O) ltac:(intros ?; apply O') S HI) as (ids' & HI' & P & _).
    rewrite HI'. cbn [rbind]. rewrite (wfct_level pp _ _ _ W) in H. rewrite (wfct_level pp _ _ _ W'). cbn [rbind] in *. apply rbind_ok in H as (w & HW & H). injection H as <-.
    destruct (C03_new_ciphertext N pp (o 61%nat) ids level WF ltac:(intros ?; apply O) HL) as (WN & _).
    destruct (Nat.lt_ge_cases level L) as [LT|GE]; [rewrite (Conjugate_panics pp level level fl false o crs (cv c) ck _ O W WN) in HW by (left; exact LT); discriminate HW|].
    assert (level = L) by (pose proof (L_lt pp WF); unfold maxLevel in *; lia). subst level.
    destruct (Conjugate_dir pp WF o o' crs (cv c) (cv c') ck _ _ w O O' (proj1 W) (proj1 W') S (New_eqc _ _ _ _ L P) (wfct_zok pp _ _ _ W) (wfct_zok pp _ _ _ WN) HW) as (w' & HW' & Q).
    rewrite HW'. cbn [rbind]. eexists. split; [reflexivity|]. split; [apply same_eqc; exact Q|exact SC].
  Qed.
  (** BFV *)
  Lemma bRotateNew_dir (o o' : nat -> order) crs (c c' : ct) k rk fl fl' : (forall n, order_ok (o n)) -> (forall n, order_ok (o' n)) -> wfct pp L fl c -> wfct pp L fl' c' -> sameCt c c' ->
    dir sameCt (bRotateNew pp o crs c k rk) (bRotateNew pp o' crs c' k rk).
  Proof.
    intros O O' W W' S v H. pose proof (L_lt pp WF) as HL. apply same_eqc in S. unfold bRotateNew, bNewCiphertext in *. apply rbind_ok in H as (ids & HI & H).
    destruct (ids_perm (o 0%nat 1%nat) (o' 0%nat 1%nat) (o 0%nat 2%nat) (o' 0%nat 2%nat) c c' ids ltac:(intros ?; apply O) ltac:(intros ?; apply O') ltac:(intros ?; apply O) ltac:(intros ?; apply O') S HI) as (ids' & HI' & P & _).
    rewrite HI'. cbn [rbind].
    destruct (New_facts pp WF (o 0%nat 2%nat) ids L ltac:(intros ?; apply O) HL) as [M1 Z1]. destruct (New_facts pp WF (o' 0%nat 2%nat) ids' L ltac:(intros ?; apply O') HL) as [M2 _].
    pose proof (New_eqc _ _ _ _ L P : eqc (N := N) (NewCiphertext (o 0%nat 2%nat) ids L) (NewCiphertext (o' 0%nat 2%nat) ids' L)) as QN.
    assert (X : exists w, bRotate pp o' crs c' k rk (NewCiphertext (o' 0%nat 2%nat) ids' L) = Ok w /\ eqc v w).
    { unfold bRotate in *. apply rbind_ok in H as (k1 & HK & H). rewrite HK. cbn [rbind]. destruct (k1 =? 0).
      - exact (Copy_dir (o 0%nat 0%nat) (o' 0%nat 0%nat) _ _ c c' ltac:(intros ?; apply O) ltac:(intros ?; apply O') (proj1 W) (proj1 W') S QN v H).
      - destruct (CopyNew_dir (o 0%nat 0%nat) (o' 0%nat 0%nat) c c' ltac:(intros ?; apply O) ltac:(intros ?; apply O') (proj1 W) (proj1 W') (proj1 (proj2 W)) S) as (t & t' & A & A' & B & B' & C & D).
        rewrite A in H. rewrite A'. cbn [rbind] in *. pose proof (zok_eqc pp L c t (eqc_sym _ _ C) (wfct_zok pp _ _ _ W)) as ZT. destruct (mget Z.eq_dec crs k1).
        + destruct (RotateGen_dir pp WF L L (o 0%nat) (o' 0%nat) crs None t t' k1 rk _ _ v HL (O _) (O' _) B B' D QN ZT Z1 M1 M2 H) as (w' & E1 & E2 & _). exists w'. split; assumption.
        + exact (rotChain_dir pp WF L o o' crs rk HL O O' (Z.to_nat k1) 1 k1 t t' _ _ v B B' M1 M2 D QN ZT Z1 H). }
    destruct X as (w & HW & Q). exists w. split; [exact HW|apply same_eqc; exact Q].
  Qed.
  Lemma bConjugateNew_dir (o o' : order) crs (c c' : ct) ck fl fl' : order_ok o -> order_ok o' -> wfct pp L fl c -> wfct pp L fl' c' -> sameCt c c' ->
    dir sameCt (bConjugateNew pp o crs c ck) (bConjugateNew pp o' crs c' ck).
  Proof.
    intros O O' W W' S v H. pose proof (L_lt pp WF) as HL. apply same_eqc in S. unfold bConjugateNew, bNewCiphertext in *. apply rbind_ok in H as (ids & HI & H).
    destruct (ids_perm (o 60%nat) (o' 60%nat) (o 61%nat) (o' 61%nat) c c' ids ltac:(intros ?; apply O) ltac:(intros ?; apply O') ltac:(intros ?; apply O) ltac:(intros ?; apply O') S HI) as (ids' & HI' & P & _).
    rewrite HI'. cbn [rbind].
    destruct (CopyNew_dir (o 62%nat) (o' 62%nat) c c' ltac:(intros ?; apply O) ltac:(intros ?; apply O') (proj1 W) (proj1 W') (proj1 (proj2 W)) S) as (t & t' & A & A' & B & B' & C & D).
    rewrite A in H. rewrite A'. cbn [rbind] in *. destruct (New_facts pp WF (o 61%nat) ids L ltac:(intros ?; apply O) HL) as [M1 Z1].
    destruct (Conjugate_dir pp WF o o' crs t t' ck _ _ v O O' B B' D (New_eqc _ _ _ _ L P) (zok_eqc pp L c t (eqc_sym _ _ C) (wfct_zok pp _ _ _ W)) Z1 H) as (w & HW & Q). exists w. split; [exact HW|apply same_eqc; exact Q].
  Qed.

  (** multiplication *)
  Lemma agree_hoisted level lh (op op' : ct) h h' : eqc op op' -> hoisted_at pp lh op (Some h) -> hoisted_at pp lh op' (Some h') -> agree pp level (Some h) (Some h') op op'.
  Proof.
    intros Q H H' id I. destruct (H id I) as (ds & A & B). destruct (H' id ltac:(apply (eqc_parties op op' id Q); exact I)) as (ds' & A' & B').
    assert (E : comp op id = comp op' id) by (unfold comp; rewrite (Q id); reflexivity). rewrite <- E in A'. assert (ds' = ds) by congruence. subst ds'. unfold hdig, ExtOp, hget. rewrite B, B'. split; reflexivity.
  Qed.
  Lemma gvok_relin level lh lin (op : ct) h crs rs B T (s r : string -> R N) a u (b : bool) : (lin < length (Qm pp))%nat -> (level <= lh)%nat -> (lh <= lin)%nat -> small_ok pp B ->
    mget Z.eq_dec crs 0 = Some a -> mget Z.eq_dec crs (-1) = Some u -> crs_ok pp a -> crs_ok pp u ->
    wfct pp lin false op -> hoisted_at pp lh op (Some h) -> (forall id, In id (parties op) -> has_relin_key pp crs rs B T id (s id) (r id)) ->
    gvok pp level (if b then rlk_b else rlk_d) (Some h) op rs (parties op).
  Proof.
    intros HL H1 H2 SM GA GU CA CU W HH HK id I. destruct (hoisted_digits pp level lh lin op (Some h) WF HL H1 H2 ltac:(discriminate) W HH id I) as (ds & D & E1 & E2 & E3).
    destruct (has_relin_ok pp crs rs B T id (s id) (r id) a u WF SM GA GU CA CU (HK id I)) as (key & K1 & eb & ed & ev & K2 & K3 & K4 & _ & _ & K5).
    pose proof (L_lt pp WF) as LL. assert (LV : (level <= L)%nat) by (unfold maxLevel in *; lia). pose proof (beta_mono2 pp WF level L LV LL) as BM.
    exists ds, key. split; [exact E1|]. split; [exact K1|]. split; [exact E2|]. split; [destruct b; lia|]. intros i m Hi V. destruct (E3 i Hi) as (_ & E4 & _). split; [apply E4; exact V|].
    destruct (K5 i ltac:(lia)) as (_ & _ & _ & M1 & M2 & _). assert (VL : vi pp L m) by (destruct m; cbn in *; lia). destruct b; [apply M1; exact VL|apply M2; exact VL].
  Qed.
  Lemma Rescale_dir o o' (u v : ct) sc ps : ord1_ok o -> ord1_ok o' -> mwf u -> mwf v -> eqc u v -> dir (fun a b => sameCk (fst a) (fst b) /\ snd a = snd b) (CkksModel.Rescale pp o (CK u sc) ps None) (CkksModel.Rescale pp o' (CK v sc) ps None).
  Proof.
    intros O O' MU MV Q r H. unfold CkksModel.Rescale in *. cbn [cv csc] in *.
    assert (SQ : forall (x y : ct) s, eqc x y -> sameCk (CK x s) (CK y s)) by (intros x y s' E; split; [apply same_eqc; exact E|reflexivity]).
    destruct (f_le ps f_zero); [exists (CK v sc, true); split; [reflexivity|]; injection H as <-; split; [apply SQ; exact Q|reflexivity]|].
    destruct (f_eq sc f_zero); [exists (CK v sc, true); split; [reflexivity|]; injection H as <-; split; [apply SQ; exact Q|reflexivity]|].
    apply rbind_ok in H as (level & HL & H). rewrite <- (eqc_level u v Q), HL. cbn [rbind].
    destruct (level =? 0)%nat; [exists (CK v sc, true); split; [reflexivity|]; injection H as <-; split; [apply SQ; exact Q|reflexivity]|].
    apply rbind_ok in H as ([s nb] & HR & H). rewrite HR. cbn [rbind]. destruct (0 <? nb)%nat; [|exists (CK v s, false); split; [reflexivity|]; injection H as <-; split; [apply SQ; exact Q|reflexivity]].
    pose (G := fun (id : string) (q : poly N) => if (length (prows q) <=? level)%nat then Panic else if (length (prows q) <? S level - nb)%nat then Panic else Ok (Pol (divRoundMany pp nb level (prows q)) (pntt q))).
    assert (F : forall l (b : ct), rfold (fun v id => p <- cgetL v id level ;; q <- cget v id ;; (if (length (prows q) <? S level - nb)%nat then Panic else Ok (cset v id (Pol (divRoundMany pp nb level (prows p)) (pntt q))))) l b = rfold (own G) l b).
    { intros l b. apply rfold_extI. intros c id _. unfold own, cgetL, G. destruct (cget c id) as [q|]; cbn [rbind]; [|reflexivity]. destruct (length (prows q) <=? level)%nat; cbn [rbind]; [reflexivity|]. destruct (length (prows q) <? S level - nb)%nat; reflexivity. }
    rewrite F in H. rewrite F. apply rbind_ok in H as (w & HW & H). destruct (keys_perm u v o o' O O' MU MV Q) as [P ND]. destruct (own_dir G _ _ u v P ND Q w HW) as (w' & HW' & QW). rewrite HW'. cbn [rbind].
    exists (CK w' s, false). split; [reflexivity|]. injection H as <-. split; [apply SQ; exact QW|reflexivity].
  Qed.
  Lemma newBinary_dir (o o' : order) (c0 c0' c1 c1' : ckct N) l0 l1 f0 f0' f1 f1' : order_ok o -> order_ok o' -> (l0 < length (Qm pp))%nat -> (l1 < length (Qm pp))%nat -> wfct pp l0 f0 (cv c0) -> wfct pp l1 f1 (cv c1) -> wfct pp l0 f0' (cv c0') -> wfct pp l1 f1' (cv c1') -> sameCk c0 c0' -> sameCk c1 c1' ->
    exists v v' sc, newCiphertextBinary o c0 c1 = Ok (CK v sc) /\ newCiphertextBinary o' c0' c1' = Ok (CK v' sc) /\ eqc v v' /\ mwf v /\ mwf v' /\ ctLevel v = Ok (Nat.min l0 l1) /\ ctLevel v' = Ok (Nat.min l0 l1).
  Proof.
    intros O O' H0 H1 W0 W1 W0' W1' [S0 E0] [S1 E1]. unfold newCiphertextBinary. rewrite (wfct_level pp _ _ _ W0), (wfct_level pp _ _ _ W1), (wfct_level pp _ _ _ W0'), (wfct_level pp _ _ _ W1'). cbn [rbind].
    assert (RP : forall o (c : ct), ord1_ok o -> exists ids, IDSetOf o c = Ok ids /\ IdSetProofs.rep ids (fun x => x <> id0 /\ In x (keys c))).
    { intros oo c OO. destruct (IDSetOf_ok oo c OO) as (ids & A & M & B). exists ids. split; [exact A|]. assert (X : forall x, In x (keys ids) <-> x <> id0 /\ In x (keys c)) by (intros x; rewrite <- (B x); unfold is_has; rewrite mhas_In; reflexivity).
      split; [exact M|]. split; [rewrite X; tauto|exact X]. }
    destruct (RP (o 20%nat) (cv c0) ltac:(intros ?; apply O)) as (i0 & A0 & B0). destruct (RP (o 21%nat) (cv c1) ltac:(intros ?; apply O)) as (i1 & A1 & B1).
    destruct (RP (o' 20%nat) (cv c0') ltac:(intros ?; apply O')) as (i0' & A0' & B0'). destruct (RP (o' 21%nat) (cv c1') ltac:(intros ?; apply O')) as (i1' & A1' & B1').
    rewrite A0, A1, A0', A1'. cbn [rbind]. destruct (rep_union o O 22 i0 _ i1 _ B0 B1) as (ids & AU & RU). destruct (rep_union o' O' 22 i0' _ i1' _ B0' B1') as (ids' & AU' & RU'). rewrite AU, AU'. cbn [rbind]. rewrite E0, E1.
    unfold ckNew. eexists _, _, _. split; [reflexivity|]. split; [reflexivity|].
    assert (HL : (Nat.min l0 l1 < length (Qm pp))%nat) by lia.
    destruct (C03_new_ciphertext N pp (o 24%nat) ids (Nat.min l0 l1) WF ltac:(intros ?; apply O) HL) as (WN & _). destruct (C03_new_ciphertext N pp (o' 24%nat) ids' (Nat.min l0 l1) WF ltac:(intros ?; apply O') HL) as (WN' & _).
    split; [|split; [apply WN|split; [apply WN'|split; [apply (wfct_level pp _ _ _ WN)|apply (wfct_level pp _ _ _ WN')]]]].
    apply New_eqc. eapply Permutation_trans; [apply O|]. eapply Permutation_trans; [|apply Permutation_sym; apply O']. apply NoDup_Permutation; [apply RU|apply RU'|].
    intros x. rewrite (proj2 (proj2 RU) x), (proj2 (proj2 RU') x), (proj1 (S0 x)), (proj1 (S1 x)). reflexivity.
  Qed.
  Lemma HoistedNew_dir (o o' : order) crs ps (c0 c0' c1 c1' : ckct N) h0 h0' h1 h1' rs (s r : string -> R N) a u B T l0 l1 : order_ok o -> order_ok o' -> small_ok pp B ->
    (l0 < length (Qm pp))%nat -> (l1 < length (Qm pp))%nat -> wfct pp l0 false (cv c0) -> wfct pp l1 false (cv c1) -> wfct pp l0 false (cv c0') -> wfct pp l1 false (cv c1') -> sameCk c0 c0' -> sameCk c1 c1' ->
    mget Z.eq_dec crs 0 = Some a -> mget Z.eq_dec crs (-1) = Some u -> crs_ok pp a -> crs_ok pp u ->
    (forall id, In id (parties (cv c0)) \/ In id (parties (cv c1)) -> has_relin_key pp crs rs B T id (s id) (r id)) ->
    hoisted_at pp l0 (cv c0) (Some h0) -> hoisted_at pp l1 (cv c1) (Some h1) -> hoisted_at pp l0 (cv c0') (Some h0') -> hoisted_at pp l1 (cv c1') (Some h1') ->
    dir sameCk (MulRelinHoistedNew pp o crs ps c0 c1 (Some h0) (Some h1) rs) (MulRelinHoistedNew pp o' crs ps c0' c1' (Some h0') (Some h1') rs).
  Proof.
    intros O O' SM H0 H1 W0 W1 W0' W1' S0 S1 GA GU CA CU HK HH0 HH1 HH0' HH1' v H.
    pose proof (proj1 (same_eqc _ _) (proj1 S0)) as Q0. pose proof (proj1 (same_eqc _ _) (proj1 S1)) as Q1.
    unfold MulRelinHoistedNew in *. destruct (newBinary_dir o o' c0 c0' c1 c1' l0 l1 false false false false O O' H0 H1 W0 W1 W0' W1' S0 S1) as (n & n' & sc & A & A' & QN & MN & MN' & LN & LN').
    rewrite A in H. rewrite A'. cbn [rbind] in *. unfold mulRelinHoisted in *. cbn [cv csc] in *. rewrite (wfct_level pp _ _ _ W0), (wfct_level pp _ _ _ W1), LN in H. rewrite (wfct_level pp _ _ _ W0'), (wfct_level pp _ _ _ W1'), LN'. cbn [rbind] in *.
    rewrite Nat.min_id in *. destruct (Nat.ltb_spec (Nat.min l0 l1) (Nat.min l0 l1)); [lia|]. cbn [rbind cv csc] in *.
    apply rbind_ok in H as (w & HW & H).
    destruct (mul_dir pp WF (Nat.min l0 l1) o o' crs (cv c0) (cv c0') (cv c1) (cv c1') (Some h0) (Some h0') (Some h1) (Some h1') rs n n' w ltac:(lia) O O' Q0 Q1 QN MN MN' LN
      (agree_hoisted _ l0 _ _ _ _ Q0 HH0 HH0') (agree_hoisted _ l1 _ _ _ _ Q1 HH1 HH1')
      (gvok_relin (Nat.min l0 l1) l0 l0 (cv c0) h0 crs rs B T s r a u false H0 ltac:(lia) (le_n _) SM GA GU CA CU W0 HH0 ltac:(intros id I; apply HK; left; exact I))
      (gvok_relin (Nat.min l0 l1) l1 l1 (cv c1) h1 crs rs B T s r a u true H1 ltac:(lia) (le_n _) SM GA GU CA CU W1 HH1 ltac:(intros id I; apply HK; right; exact I)) HW) as (w' & HW' & QW & MW & MW').
    rewrite HW'. cbn [rbind]. rewrite <- (proj2 S0), <- (proj2 S1). apply rbind_ok in H as ([x e] & HX & H). injection H as <-.
    destruct (Rescale_dir (o 41%nat) (o' 41%nat) w w' _ ps ltac:(intros ?; apply O) ltac:(intros ?; apply O') MW MW' QW _ HX) as ([x' e'] & HX' & SX & _). rewrite HX'. cbn [rbind fst] in *. exists x'. split; [reflexivity|exact SX].
  Qed.
  Lemma hoistInto_at (o : order) n (rs : rlkset N) (c : ckct N) k ids lin : order_ok o -> (lin < length (Qm pp))%nat -> wfct pp lin false (cv c) -> IDSetOf (o k) (cv c) = Ok ids -> (forall id, In id (parties (cv c)) -> exists k, rlk_get rs id = Ok k) ->
    exists h, hoistInto pp (o n) rs c ids = Ok h /\ hoisted_at pp lin (cv c) (Some h).
  Proof.
    intros O HL W HI HK. apply (hoistInto_ok pp (o n) rs c ids lin WF ltac:(intros ?; apply O) HL W); [|exact HK]. destruct (IDSetOf_ok (o k) (cv c) ltac:(intros ?; apply O)) as (i & A & _ & X). assert (i = ids) by congruence. subst i.
    intros x. rewrite <- X. unfold is_has. rewrite mhas_In. reflexivity.
  Qed.
  Lemma MulRelinNew_dir (o o' : order) crs ps (c0 c0' c1 c1' : ckct N) (same : bool) rs (s r : string -> R N) a u B T l0 l1 : order_ok o -> order_ok o' -> small_ok pp B -> (same = true -> c0 = c1) -> (same = true -> c0' = c1') ->
    (l0 < length (Qm pp))%nat -> (l1 < length (Qm pp))%nat -> wfct pp l0 false (cv c0) -> wfct pp l1 false (cv c1) -> wfct pp l0 false (cv c0') -> wfct pp l1 false (cv c1') -> sameCk c0 c0' -> sameCk c1 c1' ->
    mget Z.eq_dec crs 0 = Some a -> mget Z.eq_dec crs (-1) = Some u -> crs_ok pp a -> crs_ok pp u ->
    (forall id, In id (parties (cv c0)) \/ In id (parties (cv c1)) -> has_relin_key pp crs rs B T id (s id) (r id)) ->
    dir sameCk (MulRelinNew pp o crs ps c0 c1 same rs) (MulRelinNew pp o' crs ps c0' c1' same rs).
  Proof.
    intros O O' SM SE SE' H0 H1 W0 W1 W0' W1' S0 S1 GA GU CA CU HK v H.
    pose proof (proj1 (same_eqc _ _) (proj1 S0)) as Q0. pose proof (proj1 (same_eqc _ _) (proj1 S1)) as Q1.
    assert (RK : forall id, In id (parties (cv c0)) \/ In id (parties (cv c1)) -> exists k, rlk_get rs id = Ok k).
    { intros id Hid. destruct (has_relin_ok pp crs rs B T id (s id) (r id) a u WF SM GA GU CA CU (HK id Hid)) as (k & E & _). exists k. exact E. }
    unfold MulRelinNew in *.
    destruct (IDSetOf_ok (o 60%nat) (cv c0) ltac:(intros ?; apply O)) as (i0 & A0 & _). destruct (IDSetOf_ok (o' 60%nat) (cv c0') ltac:(intros ?; apply O')) as (i0' & A0' & _). rewrite A0 in H. rewrite A0'. cbn [rbind] in *.
    destruct (hoistInto_at o 61%nat rs c0 60%nat i0 l0 O H0 W0 A0 ltac:(intros id I; apply RK; left; exact I)) as (h0 & B0 & HH0).
    destruct (hoistInto_at o' 61%nat rs c0' 60%nat i0' l0 O' H0 W0' A0' ltac:(intros id I; apply RK; left; apply (eqc_parties _ _ id Q0); exact I)) as (h0' & B0' & HH0').
    destruct same.
    - specialize (SE eq_refl). specialize (SE' eq_refl). subst c1 c1'. assert (l1 = l0) by (pose proof (wfct_level pp _ _ _ W0); pose proof (wfct_level pp _ _ _ W1); congruence). subst l1.
      rewrite B0 in H. rewrite B0'. cbn [rbind] in *. exact (HoistedNew_dir o o' crs ps c0 c0' c0 c0' h0 h0' h0 h0' rs s r a u B T l0 l0 O O' SM H0 H0 W0 W0 W0' W0' S0 S0 GA GU CA CU HK HH0 HH0 HH0' HH0' v H).
    - destruct (IDSetOf_ok (o 62%nat) (cv c1) ltac:(intros ?; apply O)) as (i1 & A1 & _). destruct (IDSetOf_ok (o' 62%nat) (cv c1') ltac:(intros ?; apply O')) as (i1' & A1' & _). rewrite A1 in H. rewrite A1'. cbn [rbind] in *.
      destruct (hoistInto_at o 63%nat rs c1 62%nat i1 l1 O H1 W1 A1 ltac:(intros id I; apply RK; right; exact I)) as (h1 & B1 & HH1).
      destruct (hoistInto_at o' 63%nat rs c1' 62%nat i1' l1 O' H1 W1' A1' ltac:(intros id I; apply RK; right; apply (eqc_parties _ _ id Q1); exact I)) as (h1' & B1' & HH1').
      rewrite B0 in H. rewrite B0'. cbn [rbind] in *. rewrite B1 in H. rewrite B1'. cbn [rbind] in *.
      exact (HoistedNew_dir o o' crs ps c0 c0' c1 c1' h0 h0' h1 h1' rs s r a u B T l0 l1 O O' SM H0 H1 W0 W1 W0' W1' S0 S1 GA GU CA CU HK HH0 HH1 HH0' HH1' v H).
  Qed.
End Dirs.

(** *** Theorems *)
(** The two runs may start from ciphertexts whose maps are enumerated differently, so the theorems compose. *)
Theorem C74_rotate : forall N pp (o o' : nat -> IdSetModel.order) crs (c c' : ckct N) k h rk level fl, wfp N pp -> (forall n, order_ok (o n)) -> (forall n, order_ok (o' n)) ->
  (level < length (Qm pp))%nat -> wfct pp level fl (cv c) -> mwf (cv c') -> sameCk c c' ->
  sameRes sameCk (RotateNew pp o crs c k rk) (RotateNew pp o' crs c' k rk) /\ sameRes sameCk (RotateHoistedNew pp o crs c k h rk) (RotateHoistedNew pp o' crs c' k h rk).
Proof.
  intros N pp o o' crs c c' k h rk level fl WF O O' HL W M S. pose proof (wfct_same pp level fl _ _ M (proj1 S) W) as W'. pose proof (sameCk_sym _ _ S) as S'.
  split; apply (sameRes_dir _ sameCk_sym).
  - exact (RotateNew_dir pp WF o o' crs c c' k rk level fl fl O O' HL W W' S).
  - exact (RotateNew_dir pp WF o' o crs c' c k rk level fl fl O' O HL W' W S').
  - exact (RotateHoistedNew_dir pp WF o o' crs c c' k h rk level fl fl O O' HL W W' S).
  - exact (RotateHoistedNew_dir pp WF o' o crs c' c k h rk level fl fl O' O HL W' W S').
Qed.
Print Assumptions C74_rotate.
Theorem C74_conjugate : forall N pp (o o' : IdSetModel.order) crs (c c' : ckct N) ck level fl, wfp N pp -> order_ok o -> order_ok o' ->
  (level < length (Qm pp))%nat -> wfct pp level fl (cv c) -> mwf (cv c') -> sameCk c c' -> sameRes sameCk (ConjugateNew pp o crs c ck) (ConjugateNew pp o' crs c' ck).
Proof.
  intros N pp o o' crs c c' ck level fl WF O O' HL W M S. pose proof (wfct_same pp level fl _ _ M (proj1 S) W) as W'. pose proof (sameCk_sym _ _ S) as S'. apply (sameRes_dir _ sameCk_sym).
  - exact (ConjugateNew_dir pp WF o o' crs c c' ck level fl fl O O' HL W W' S).
  - exact (ConjugateNew_dir pp WF o' o crs c' c ck level fl fl O' O HL W' W S').
Qed.
Print Assumptions C74_conjugate.
Theorem C74_bfv_rotate_conjugate : forall N pp (o o' : nat -> IdSetModel.order) crs (c c' : ctT N) k rk ck fl, wfp N pp -> (forall n, order_ok (o n)) -> (forall n, order_ok (o' n)) ->
  wfct pp (maxLevel pp) fl c -> mwf c' -> sameCt c c' ->
  sameRes sameCt (bRotateNew pp o crs c k rk) (bRotateNew pp o' crs c' k rk) /\ sameRes sameCt (bConjugateNew pp (o 0%nat) crs c ck) (bConjugateNew pp (o' 0%nat) crs c' ck).
Proof.
  intros N pp o o' crs c c' k rk ck fl WF O O' W M S. pose proof (wfct_same pp _ fl _ _ M S W) as W'. pose proof (sameCt_sym _ _ S) as S'. split; apply (sameRes_dir _ sameCt_sym).
  - exact (bRotateNew_dir pp WF o o' crs c c' k rk fl fl O O' W W' S).
  - exact (bRotateNew_dir pp WF o' o crs c' c k rk fl fl O' O W' W S').
  - exact (bConjugateNew_dir pp WF (o 0%nat) (o' 0%nat) crs c c' ck fl fl (O _) (O' _) W W' S).
  - exact (bConjugateNew_dir pp WF (o' 0%nat) (o 0%nat) crs c' c ck fl fl (O' _) (O _) W' W S').
Qed.
Print Assumptions C74_bfv_rotate_conjugate.
Lemma relin_same {N} pp crs rs B T (s r : string -> R N) (c0 c0' c1 c1' : ckct N) : sameCk c0 c0' -> sameCk c1 c1' ->
  (forall id, In id (parties (cv c0)) \/ In id (parties (cv c1)) -> has_relin_key pp crs rs B T id (s id) (r id)) -> forall id, In id (parties (cv c0')) \/ In id (parties (cv c1')) -> has_relin_key pp crs rs B T id (s id) (r id).
Proof.
  intros [S0 _] [S1 _] HK id I. apply HK. apply same_eqc in S0. apply same_eqc in S1. rewrite (eqc_parties _ _ id S0), (eqc_parties _ _ id S1). exact I.
Qed.
Theorem C74_mul : forall N pp (o o' : IdSetModel.order) crs pscale (c0 c0' c1 c1' : ckct N) (same : bool) rs (s r : string -> R N) a u B T l0 l1, wfp N pp -> order_ok o -> order_ok o' -> small_ok pp B ->
  (same = true -> c0 = c1) -> (same = true -> c0' = c1') ->
  (l0 < length (Qm pp))%nat -> (l1 < length (Qm pp))%nat -> wfct pp l0 false (cv c0) -> wfct pp l1 false (cv c1) -> mwf (cv c0') -> mwf (cv c1') -> sameCk c0 c0' -> sameCk c1 c1' ->
  mget Z.eq_dec crs 0 = Some a -> mget Z.eq_dec crs (-1) = Some u -> crs_ok pp a -> crs_ok pp u ->
  (forall id, In id (parties (cv c0)) \/ In id (parties (cv c1)) -> has_relin_key pp crs rs B T id (s id) (r id)) ->
  sameRes sameCk (MulRelinNew pp o crs pscale c0 c1 same rs) (MulRelinNew pp o' crs pscale c0' c1' same rs).
Proof.
  intros N pp o o' crs pscale c0 c0' c1 c1' same rs s r a u B T l0 l1 WF O O' SM SE SE' H0 H1 W0 W1 M0 M1 S0 S1 GA GU CA CU HK.
  pose proof (wfct_same pp l0 false _ _ M0 (proj1 S0) W0) as W0'. pose proof (wfct_same pp l1 false _ _ M1 (proj1 S1) W1) as W1'. apply (sameRes_dir _ sameCk_sym).
  - exact (MulRelinNew_dir pp WF o o' crs pscale c0 c0' c1 c1' same rs s r a u B T l0 l1 O O' SM SE SE' H0 H1 W0 W1 W0' W1' S0 S1 GA GU CA CU HK).
  - exact (MulRelinNew_dir pp WF o' o crs pscale c0' c0 c1' c1 same rs s r a u B T l0 l1 O' O SM SE' SE H0 H1 W0' W1' W0 W1 (sameCk_sym _ _ S0) (sameCk_sym _ _ S1) GA GU CA CU (relin_same pp crs rs B T s r c0 c0' c1 c1' S0 S1 HK)).
Qed.
Print Assumptions C74_mul.
(** with hoisted operands; the two hoisted forms of an operand may be enumerated differently too *)
Theorem C74_mul_hoisted : forall N pp (o o' : IdSetModel.order) crs pscale (c0 c0' c1 c1' : ckct N) h0 h0' h1 h1' rs (s r : string -> R N) a u B T l0 l1, wfp N pp -> order_ok o -> order_ok o' -> small_ok pp B ->
  (l0 < length (Qm pp))%nat -> (l1 < length (Qm pp))%nat -> wfct pp l0 false (cv c0) -> wfct pp l1 false (cv c1) -> mwf (cv c0') -> mwf (cv c1') -> sameCk c0 c0' -> sameCk c1 c1' ->
  mget Z.eq_dec crs 0 = Some a -> mget Z.eq_dec crs (-1) = Some u -> crs_ok pp a -> crs_ok pp u ->
  (forall id, In id (parties (cv c0)) \/ In id (parties (cv c1)) -> has_relin_key pp crs rs B T id (s id) (r id)) ->
  hoisted_at pp l0 (cv c0) (Some h0) -> hoisted_at pp l1 (cv c1) (Some h1) -> hoisted_at pp l0 (cv c0') (Some h0') -> hoisted_at pp l1 (cv c1') (Some h1') ->
  sameRes sameCk (MulRelinHoistedNew pp o crs pscale c0 c1 (Some h0) (Some h1) rs) (MulRelinHoistedNew pp o' crs pscale c0' c1' (Some h0') (Some h1') rs).
Proof.
  intros N pp o o' crs pscale c0 c0' c1 c1' h0 h0' h1 h1' rs s r a u B T l0 l1 WF O O' SM H0 H1 W0 W1 M0 M1 S0 S1 GA GU CA CU HK A0 A1 A0' A1'.
  pose proof (wfct_same pp l0 false _ _ M0 (proj1 S0) W0) as W0'. pose proof (wfct_same pp l1 false _ _ M1 (proj1 S1) W1) as W1'. apply (sameRes_dir _ sameCk_sym).
  - exact (HoistedNew_dir pp WF o o' crs pscale c0 c0' c1 c1' h0 h0' h1 h1' rs s r a u B T l0 l1 O O' SM H0 H1 W0 W1 W0' W1' S0 S1 GA GU CA CU HK A0 A1 A0' A1').
  - exact (HoistedNew_dir pp WF o' o crs pscale c0' c0 c1' c1 h0' h0 h1' h1 rs s r a u B T l0 l1 O' O SM H0 H1 W0' W1' W0 W1 (sameCk_sym _ _ S0) (sameCk_sym _ _ S1) GA GU CA CU (relin_same pp crs rs B T s r c0 c0' c1 c1' S0 S1 HK) A0' A1' A0 A1).
Qed.
Print Assumptions C74_mul_hoisted.

(** two iteration orders that differ in every loop; both runs of a product and of a two-step rotation return *)
Definition ex_ord2 : IdSetModel.order := fun n l => rev (ex_ord n l).
Lemma ex_ord2_ok : order_ok ex_ord2.
Proof. intros n l. unfold ex_ord2. eapply Permutation_trans; [apply Permutation_sym, Permutation_rev|apply ex_ord_ok]. Qed.
Lemma sameCk_refl {N} (c : ckct N) : sameCk c c.
Proof. split; [intros x; split; reflexivity|reflexivity]. Qed.
Theorem C74_nonvacuous : exists (c0 c1 c : ckct 8), parties (cv c0) = ["alice"]%string /\ parties (cv c1) = ["alice"; "bob"]%string /\ parties (cv c) = ["alice"; "bob"]%string /\
  (forall n, ex_ord n ["alice"; "bob"]%string <> ex_ord2 n ["alice"; "bob"]%string) /\
  (exists v v', MulRelinNew ex_pp ex_ord ex_crs (f_of_int 200) c0 c1 false exu_rs = Ok v /\ MulRelinNew ex_pp ex_ord2 ex_crs (f_of_int 200) c0 c1 false exu_rs = Ok v' /\ sameCk v v') /\
  (exists v v', RotateNew ex_pp (fun _ => ex_ord) ex_crs c (-1) exu_rk = Ok v /\ RotateNew ex_pp (fun _ => ex_ord2) ex_crs c (-1) exu_rk = Ok v' /\ sameCk v v').
Proof.
  destruct C20_nonvacuous as (op0 & op1 & out & W0 & W1 & _ & P0 & P1 & _ & K & _). cbv zeta in K.
  exists (CK op0 (f_of_int 256)), (CK op1 (f_of_int 256)), (CK op1 f_one). cbn [cv]. split; [exact P0|]. split; [exact P1|]. split; [exact P1|].
  assert (I0 : In 0 [0; -1; -2; 1; 2]) by (cbn; tauto). assert (I1 : In (-1) [0; -1; -2; 1; 2]) by (cbn; tauto).
  assert (O : forall n : nat, order_ok ((fun _ : nat => ex_ord) n)) by (intros; apply ex_ord_ok).
  assert (O2 : forall n : nat, order_ok ((fun _ : nat => ex_ord2) n)) by (intros; apply ex_ord2_ok).
  assert (Q3 : length (Qm ex_pp) = 3%nat) by reflexivity.
  split; [intros n; unfold ex_ord2, ex_ord; destruct (Nat.even n); discriminate|]. split.
  - destruct (C44_mul_relin_new 8 ex_pp ex_ord ex_crs (f_of_int 200) (CK op0 (f_of_int 256)) (CK op1 (f_of_int 256)) false exu_rs (fun _ => ex_s) (fun _ => ex_s) _ _ 3 1 2 2 1 ex_wf ex_ord_ok ex_small
      ltac:(discriminate) ltac:(rewrite Q3; lia) ltac:(rewrite Q3; lia) W0 W1 (proj1 (ex_crs_get 0 I0)) (proj1 (ex_crs_get (-1) I1)) (proj2 (ex_crs_get 0 I0)) (proj2 (ex_crs_get (-1) I1)) K) as (v & E & _).
    + vm_compute. reflexivity.
    + vm_compute. reflexivity.
    + split; [cbn; lia|]. split; [|vm_compute; reflexivity]. intros i Hi. destruct i; [vm_compute; reflexivity|lia].
    + pose proof (C74_mul 8 ex_pp ex_ord ex_ord2 ex_crs (f_of_int 200) (CK op0 (f_of_int 256)) (CK op0 (f_of_int 256)) (CK op1 (f_of_int 256)) (CK op1 (f_of_int 256)) false exu_rs (fun _ => ex_s) (fun _ => ex_s) _ _ 3 1 2 2 ex_wf ex_ord_ok ex_ord2_ok ex_small
        ltac:(discriminate) ltac:(discriminate) ltac:(rewrite Q3; lia) ltac:(rewrite Q3; lia) W0 W1 (proj1 W0) (proj1 W1) (sameCk_refl _) (sameCk_refl _) (proj1 (ex_crs_get 0 I0)) (proj1 (ex_crs_get (-1) I1)) (proj2 (ex_crs_get 0 I0)) (proj2 (ex_crs_get (-1) I1)) K) as S.
      unfold sameRes in S. rewrite E in S. destruct (MulRelinNew ex_pp ex_ord2 _ _ _ _ _ _) as [v'|]; [|destruct S]. eexists _, _. split; [exact E|]. split; [reflexivity|exact S].
  - destruct (C23_rotate_new 8 ex_pp (fun _ => ex_ord) ex_crs (CK op1 f_one) (-1) exu_rk (fun _ => ex_s) 3 1 2 ex_wf O ex_small ltac:(rewrite Q3; lia) W1) as (v & EE & E & _).
    + intros i _ U. assert (J : needs ex_crs (-1 mod Z.of_nat (8 / 2)) i) by (split; [discriminate|]; destruct U as [[A ->]|(A & t & T1 & T2 & ->)]; [destruct (mget Z.eq_dec ex_crs _); [reflexivity|congruence]|rewrite A; exists t; repeat split; assumption]).
      apply ex_needs in J. assert (I : In i [0; -1; -2; 1; 2]) by (cbn; lia). eexists. split; [exact (proj1 (ex_crs_get i I))|exact (proj2 (ex_crs_get i I))].
    + intros i id _ U Hid. assert (J : needs ex_crs (-1 mod Z.of_nat (8 / 2)) i) by (split; [discriminate|]; destruct U as [[A ->]|(A & t & T1 & T2 & ->)]; [destruct (mget Z.eq_dec ex_crs _); [reflexivity|congruence]|rewrite A; exists t; repeat split; assumption]).
      apply ex_needs in J. cbn [cv] in Hid. rewrite P1 in Hid. apply exu_has; assumption.
    + pose proof (proj1 (C74_rotate 8 ex_pp (fun _ => ex_ord) (fun _ => ex_ord2) ex_crs (CK op1 f_one) (CK op1 f_one) (-1) nil exu_rk 2 false ex_wf O O2 ltac:(rewrite Q3; lia) W1 (proj1 W1) (sameCk_refl _))) as S.
      unfold sameRes in S. rewrite E in S. destruct (RotateNew ex_pp (fun _ => ex_ord2) _ _ _ _) as [v'|]; [|destruct S]. eexists _, _. split; [exact E|]. split; [reflexivity|exact S].
Qed.
Print Assumptions C74_nonvacuous.
