(** C74: rotation and conjugation give the same ciphertext in any iteration order. *)
From Coq Require Import Znumtheory Setoid Morphisms Permutation.
From Verif Require Import Base IdSetModel KeySetModel NumTheory Negacyclic Ntt Word BasisExt BasisExtProofs Rows RlweModel KeyGenModel SchemeSpec ExtProd ExtProps Galois KeyGenProofs CtModel CtSpec CtProofs EncDecProofs KeySwitchModel Digits KsLoops RotProofs ConjProofs CkksModel BfvModel PropsEnc Determ.
Open Scope Z_scope.

Lemma rfold_extI {A B} (f g : A -> B -> res A) l : (forall a x, In x l -> f a x = g a x) -> forall a, rfold f l a = rfold g l a.
Proof.
  induction l as [|x l IH]; intros H a; cbn [rfold]; [reflexivity|]. rewrite (H a x (or_introl eq_refl)). destruct (g a x); cbn [rbind]; [|reflexivity]. apply IH. intros b y I. apply H. right. exact I.
Qed.
Lemma rbind_dir {A B} (E : A -> A -> Prop) (r r' : res A) (F : A -> res B) x : rbind r F = Ok x -> dir E r r' -> exists a b, r = Ok a /\ r' = Ok b /\ E a b /\ F a = Ok x.
Proof. destruct r as [a|]; [|discriminate]. intros H D. destruct (D a eq_refl) as (b & R & Q). exists a, b. split; [reflexivity|]. split; [exact R|]. split; [exact Q|exact H]. Qed.
Lemma rbind_ok {A B} (r : res A) (F : A -> res B) x : rbind r F = Ok x -> exists a, r = Ok a /\ F a = Ok x.
Proof. destruct r as [a|]; [|discriminate]. intros H. exists a. split; [reflexivity|exact H]. Qed.

Section Ops.
  Context {N : nat} (pp : rparams) (WF : wfp N pp).
  Notation R := (R N). Notation ct := (ctT N). Notation L := (maxLevel pp).
  Notation order := IdSetModel.order. Notation eqc := (@eqc N). Notation zok := (@zok N pp). Notation rowsok := (@rowsok N pp). Notation wfct := (@wfct N pp).

  Lemma wfct_zok level fl (c : ct) : wfct level fl c -> zok level c.
  Proof. intros (_ & _ & H) q G. destruct (H id0 q G) as (A & _ & B). split; assumption. Qed.

  Lemma fold_cset (z : poly N) l : forall (c : ct) x, mget seq_dec (fold_left (fun c id => cset c id z) l c) x = if in_dec seq_dec x l then Some z else mget seq_dec c x.
  Proof.
    induction l as [|y l IH]; intros c x; cbn [fold_left]; [reflexivity|]. rewrite IH. unfold cset. rewrite mget_mset.
    destruct (in_dec seq_dec x l) as [I|I], (in_dec seq_dec x (y :: l)) as [J|J]; try reflexivity.
    - exfalso. apply J. right. exact I.
    - destruct (seq_dec x y) as [->|n]; [reflexivity|]. destruct J as [J|J]; [congruence|contradiction].
    - destruct (seq_dec x y) as [->|n]; [exfalso; apply J; left; reflexivity|reflexivity].
  Qed.
  Lemma fold_cset_mwf (z : poly N) l : forall (c : ct), mwf c -> mwf (fold_left (fun c id => cset c id z) l c).
  Proof. induction l as [|y l IH]; intros c M; cbn [fold_left]; [exact M|]. apply IH. apply mwf_mset. exact M. Qed.
  Lemma New_facts o (ids : idset) level : ord1_ok o -> (level < length (Qm pp))%nat -> mwf (NewCiphertext (N := N) o ids level) /\ zok level (NewCiphertext o ids level).
  Proof.
    intros O HL. destruct (C03_new_ciphertext N pp o ids level WF O HL) as (W & _). split; [apply W|apply (wfct_zok level false); exact W].
  Qed.
  Lemma New_eqc o o' (ids ids' : idset) level : Permutation (o (keys ids)) (o' (keys ids')) -> eqc (NewCiphertext o ids level) (NewCiphertext o' ids' level).
  Proof.
    intros P x. unfold NewCiphertext. rewrite !fold_cset. destruct (in_dec seq_dec x (o (keys ids))) as [I|I], (in_dec seq_dec x (o' (keys ids'))) as [J|J]; try reflexivity; exfalso.
    - apply J. apply (Permutation_in _ P I).
    - apply I. apply (Permutation_in _ (Permutation_sym P) J).
  Qed.

  Lemma polyCopy_rows level lin (dst src : poly N) : (level <= lin)%nat -> rowsok level dst -> rowsok lin src -> rowsok level (polyCopy dst src).
  Proof.
    intros H [A1 A2] [B1 B2]. destruct (polyCopy_wf pp level lin (pntt dst) (pntt src) dst src H) as [(C1 & _ & C2) _]; [split; [exact A1|split; [reflexivity|exact A2]]|split; [exact B1|split; [reflexivity|exact B2]]|]. split; assumption.
  Qed.
  Lemma zok_level level (c : ct) : zok level c -> forall l, ctLevel c = Ok l -> l = level.
  Proof.
    intros Z l H. unfold ctLevel, cget in H. destruct (mget seq_dec c id0) as [q|] eqn:E; cbn [rbind] in H; [|discriminate]. destruct (Z q E) as [A _]. unfold plevel in H. rewrite A in H. injection H as <-. lia.
  Qed.

  (** ** the permutation loop and the copy *)
  Definition permG level g (id : string) (q : poly N) : res (poly N) := Ok (polyCopy q (Pol (permRows pp level g (prows q)) false)).
  Lemma perm_own level g l (c : ct) : rfold (fun c id => q <- cget c id ;; Ok (cset c id (polyCopy q (Pol (permRows pp level g (prows q)) false)))) l c = rfold (own (permG level g)) l c.
  Proof. reflexivity. Qed.
  Definition copyG (src : ct) (id : string) (q : poly N) : res (poly N) := p <- cget src id ;; Ok (polyCopy q p).
  Lemma copy_own o dst (src : ct) : Copy o dst src = rfold (own (copyG src)) (o (keys src)) dst.
  Proof.
    unfold Copy. apply rfold_extI. intros c id _. unfold own, copyG. destruct (cget c id); cbn [rbind]; [|reflexivity]. destruct (cget src id); reflexivity.
  Qed.
  Lemma Copy_dir o o' dst dst' (src src' : ct) : ord1_ok o -> ord1_ok o' -> mwf src -> mwf src' -> eqc src src' -> eqc dst dst' -> dir eqc (Copy o dst src) (Copy o' dst' src').
  Proof.
    intros O O' M M' Q Q'. rewrite !copy_own. destruct (keys_perm src src' o o' O O' M M' Q) as [P ND].
    rewrite (rfold_extI (own (copyG src')) (own (copyG src))); [apply own_dir; assumption|]. intros c id _. unfold own, copyG. rewrite (eqc_cget src src' id Q). reflexivity.
  Qed.
  Lemma Copy_keep o level lin dst (src v : ct) : (level <= lin)%nat -> Copy o dst src = Ok v -> mwf dst -> zok level dst -> zok lin src -> mwf v /\ zok level v.
  Proof.
    intros HL H M Z Zs. rewrite copy_own in H. split; [apply (own_mwf _ _ _ _ H M)|].
    unfold Determ.zok. refine (own_keep (copyG src) _ (rowsok level) id0 _ dst v H Z). intros q p _ Rq G. unfold copyG, cget in G. destruct (mget seq_dec src id0) as [p0|] eqn:E; cbn [rbind] in G; [|discriminate].
    assert (polyCopy q p0 = p) by congruence. subst p. apply (polyCopy_rows level lin); [exact HL|exact Rq|apply Zs; exact E].
  Qed.
  Lemma CopyNew_dir o o' (c c' : ct) : ord1_ok o -> ord1_ok o' -> mwf c -> mwf c' -> In id0 (keys c) -> eqc c c' ->
    exists d d', CopyNew o c = Ok d /\ CopyNew o' c' = Ok d' /\ mwf d /\ mwf d' /\ eqc d c /\ eqc d d'.
  Proof.
    intros O O' M M' I Q. destruct (CopyNew_ok o c O M I) as (d & A & B & C). destruct (CopyNew_ok o' c' O' M' ltac:(apply (eqc_keys c c' id0 Q); exact I)) as (d' & A' & B' & C').
    exists d, d'. split; [exact A|split; [exact A'|split; [exact B|split; [exact B'|split; [exact C|]]]]]. intros x. rewrite (C x), (C' x). apply Q.
  Qed.
  Lemma zok_eqc level (u v : ct) : eqc u v -> zok level u -> zok level v.
  Proof. intros Q Z q G. apply Z. rewrite (Q id0). exact G. Qed.

  (** ** rotation *)
  Definition rotG level (crs : crsT N) h (ctIn : ct) k rk (id : string) (q : poly N) : res (list R * poly N) :=
    key <- rk_get rk id k ;; e <- ExtOp pp level h ctIn id (rtk_val key) ;; a <- crs_get crs k ;; ea <- ExtOp pp level h ctIn id a ;; Ok (e, Pol ea (pntt q)).
  Lemma cget_cset (c : ct) x y p : x <> y -> cget (cset c y p) x = cget c x.
  Proof. intros H. unfold cget, cset. rewrite mget_mset_neq by exact H. reflexivity. Qed.
  Lemma rot_acc level crs h ctIn k rk l (c : ct) : ~ In id0 l ->
    rfold (fun c id => key <- rk_get rk id k ;; e <- ExtOp pp level h ctIn id (rtk_val key) ;; q0 <- cget c id0 ;;
       c <- cwr c id0 (lvlQ2 pp level r_add (prows q0) e) ;; a <- crs_get crs k ;; ea <- ExtOp pp level h ctIn id a ;; cwr c id ea) l c
    = rfold (acc pp level (rotG level crs h ctIn k rk)) l c.
  Proof.
    intros N0. apply rfold_extI. intros b id I. assert (NE : id <> id0) by (intros EE; subst; contradiction). unfold acc, rotG, cwr.
    destruct (rk_get rk id k) as [key|]; cbn [rbind]; [|destruct (cget b id); reflexivity].
    destruct (ExtOp pp level h ctIn id (rtk_val key)) as [e|]; cbn [rbind]; [|destruct (cget b id); reflexivity].
    destruct (cget b id0) as [q0|] eqn:C0; cbn [rbind].
    2:{ destruct (cget b id); cbn [rbind]; [|reflexivity]. destruct (crs_get crs k); cbn [rbind]; [|reflexivity]. destruct (ExtOp _ _ _ _ _ _); reflexivity. }
    destruct (crs_get crs k) as [a|]; cbn [rbind]; [|destruct (cget b id); reflexivity].
    destruct (ExtOp pp level h ctIn id a) as [ea|]; cbn [rbind]; [|destruct (cget b id); reflexivity].
    rewrite cget_cset by exact NE. destruct (cget b id); reflexivity.
  Qed.
  Lemma rotG_canon level crs h ctIn k rk id q e p : (level < length (Qm pp))%nat -> rotG level crs h ctIn k rk id q = Ok (e, p) -> canons pp level e.
  Proof.
    intros HL H. unfold rotG in H. apply rbind_ok in H as (key & _ & H). apply rbind_ok in H as (e1 & E & H). apply rbind_ok in H as (a & _ & H). apply rbind_ok in H as (ea & _ & H).
    assert (e1 = e) by congruence. subst e1. apply (ExtOp_canon pp WF level h ctIn id (rtk_val key) e HL E).
  Qed.
  Lemma rot_out level lin (out : ct) q0 p0 : (level <= lin)%nat -> zok level out -> mget seq_dec out id0 = Some q0 -> rowsok lin p0 -> zok level (cset out id0 (polyCopy q0 p0)).
  Proof. intros H Z E Rp q. unfold cset. rewrite mget_mset_eq. intros G. assert (polyCopy q0 p0 = q) by congruence. subst q. apply (polyCopy_rows level lin); [exact H|apply Z; exact E|exact Rp]. Qed.
  Lemma cget_inv (c : ct) x q : cget c x = Ok q -> mget seq_dec c x = Some q.
  Proof. unfold cget. destruct (mget seq_dec c x); congruence. Qed.

  Lemma RotateGen_dir level lin o o' crs h (ctIn ctIn' : ct) rotidx rk out out' v :
    (level < length (Qm pp))%nat -> order_ok o -> order_ok o' -> mwf ctIn -> mwf ctIn' -> eqc ctIn ctIn' -> eqc out out' -> zok lin ctIn -> zok level out -> mwf out -> mwf out' ->
    RotateGen pp o crs h ctIn rotidx rk out = Ok v -> exists v', RotateGen pp o' crs h ctIn' rotidx rk out' = Ok v' /\ eqc v v' /\ mwf v /\ mwf v' /\ zok level v.
  Proof.
    intros HL O O' MI MI' QI QO ZI ZO MO MO' H. pose proof (pow2N pp WF) as P2. unfold RotateGen in *.
    apply rbind_ok in H as (lv & HLv & H). pose proof (zok_level level out ZO lv HLv). subst lv. rewrite <- (eqc_level out out' QO), HLv. cbn [rbind].
    apply rbind_ok in H as (ids & HI & H). destruct (ids_perm (o 0%nat) (o' 0%nat) (o 1%nat) (o' 1%nat) ctIn ctIn' ids ltac:(intros ?; apply O) ltac:(intros ?; apply O') ltac:(intros ?; apply O) ltac:(intros ?; apply O') QI HI) as (ids' & HI' & PI & ND & IL & _).
    rewrite HI'. cbn [rbind].
    apply rbind_ok in H as (li & HLi & H). pose proof (zok_level lin ctIn ZI li HLi). subst li. rewrite <- (eqc_level ctIn ctIn' QI), HLi. cbn [rbind].
    destruct (Nat.ltb_spec lin level) as [|LE]; [discriminate|].
    apply rbind_ok in H as (k & HK & H). rewrite HK. cbn [rbind].
    apply rbind_ok in H as (p0 & HP & H). rewrite <- (eqc_cget ctIn ctIn' id0 QI), HP. cbn [rbind].
    apply rbind_ok in H as (q0 & HQ & H). rewrite <- (eqc_cget out out' id0 QO), HQ. cbn [rbind].
    assert (N0 : ~ In id0 (o 1%nat (keys ids))) by (intros I; apply IL in I; apply in_parties in I; tauto).
    assert (N0' : ~ In id0 (o' 1%nat (keys ids'))) by (intros I; apply N0; apply (Permutation_in _ (Permutation_sym PI) I)).
    set (A := cset out id0 (polyCopy q0 p0)) in *. set (A' := cset out' id0 (polyCopy q0 p0)).
    assert (ZA : zok level A) by (apply (rot_out level lin); [exact LE|exact ZO|apply cget_inv; exact HQ|apply ZI; apply cget_inv; exact HP]).
    assert (QA : eqc A A') by (apply eqc_cset; exact QO). assert (MA : mwf A) by (apply mwf_mset; exact MO). assert (MA' : mwf A') by (apply mwf_mset; exact MO').
    rewrite rot_acc in H by exact N0. rewrite rot_acc by exact N0'.
    rewrite (rfold_extI (acc pp level (rotG level crs h ctIn' k rk)) (acc pp level (rotG level crs h ctIn k rk))).
    2:{ intros c id _. unfold acc. destruct (cget c id) as [q|]; cbn [rbind]; [|reflexivity]. replace (rotG level crs h ctIn' k rk id q) with (rotG level crs h ctIn k rk id q); [reflexivity|]. unfold rotG.
        destruct (rk_get rk id k); cbn [rbind]; [|reflexivity]. rewrite <- (eqc_ExtOp pp ctIn ctIn' level h id _ QI). destruct (ExtOp _ _ _ _ _ _); cbn [rbind]; [|reflexivity]. destruct (crs_get crs k); cbn [rbind]; [|reflexivity].
        rewrite <- (eqc_ExtOp pp ctIn ctIn' level h id _ QI). reflexivity. }
    assert (GC : forall id q e p, In id (o 1%nat (keys ids)) -> rotG level crs h ctIn k rk id q = Ok (e, p) -> canons pp level e) by (intros id q e p _; apply rotG_canon; exact HL).
    apply rbind_ok in H as (b & HB & H).
    destruct (acc_dir pp WF level _ _ _ A A' HL N0 GC PI ND ZA QA b HB) as (b' & HB' & QB). rewrite HB'. cbn [rbind].
    destruct (acc_keep pp WF level _ _ HL N0 GC A b HB MA ZA) as (MB & ZB & KB).
    assert (GC' : forall id q e p, In id (o' 1%nat (keys ids')) -> rotG level crs h ctIn k rk id q = Ok (e, p) -> canons pp level e) by (intros id q e p _; apply rotG_canon; exact HL).
    destruct (acc_keep pp WF level _ _ HL N0' GC' A' b' HB' MA' (zok_eqc level _ _ QA ZA)) as (MB' & _ & _).
    rewrite perm_own in H. rewrite perm_own.
    destruct (keys_perm ctIn ctIn' (o 2%nat) (o' 2%nat) ltac:(intros ?; apply O) ltac:(intros ?; apply O') MI MI' QI) as [P ND2].
    destruct (own_dir (permG level (galEl N k)) _ _ b b' P ND2 QB v H) as (v' & HV & QV). exists v'. split; [exact HV|]. split; [exact QV|]. split; [apply (own_mwf _ _ _ _ H MB)|]. split; [apply (own_mwf _ _ _ _ HV MB')|].
    unfold Determ.zok. refine (own_keep (permG level (galEl N k)) _ (rowsok level) id0 _ b v H ZB). intros q p _ [R1 R2] G. unfold permG in G.
    destruct (permRows_ok pp WF level (galEl N k) (invGalEl N (galEl N k)) (prows q)) as [Y1 Y2]; [apply (galEl_range N P2)|apply (invGalEl_odd N P2); first [apply (galEl_range N P2)|apply (galEl_odd N P2)]|apply (invGalEl_ok N P2); first [apply (galEl_range N P2)|apply (galEl_odd N P2)]|exact HL|exact R2|].
    rewrite polyCopy_full in G by lia. assert (Pol (permRows pp level (galEl N k) (prows q)) false = p) by congruence. subst p. split; [exact Y1|]. intros j Hj. apply Y2. exact Hj.
  Qed.

  Lemma rotChain_dir level (o o' : nat -> order) crs rk : (level < length (Qm pp))%nat -> (forall n, order_ok (o n)) -> (forall n, order_ok (o' n)) -> forall fuel k rotidx (tmp tmp' out out' : ct) v,
    mwf tmp -> mwf tmp' -> mwf out -> mwf out' -> eqc tmp tmp' -> eqc out out' -> zok level tmp -> zok level out ->
    rotChain pp o crs fuel k rotidx rk tmp out = Ok v -> exists v', rotChain pp o' crs fuel k rotidx rk tmp' out' = Ok v' /\ eqc v v'.
  Proof.
    intros HL O O'. induction fuel as [|fuel IH]; intros k rotidx tmp tmp' out out' v MT MT' MO MO' QT QO ZT ZO H; cbn [rotChain] in *.
    { destruct (0 <? rotidx); [discriminate|]. exists out'. split; [reflexivity|]. assert (out = v) by congruence. subst v. exact QO. }
    destruct (0 <? rotidx); [|exists out'; split; [reflexivity|]; assert (out = v) by congruence; subst v; exact QO].
    destruct (negb (rotidx mod 2 =? 0)); [|cbn [rbind] in *; apply (IH _ _ tmp tmp' out out' v); assumption].
    apply rbind_ok in H as ([t u] & H1 & H). apply rbind_ok in H1 as (u0 & HU & H1). apply rbind_ok in H1 as (t0 & HT & H1). assert (t0 = t /\ u0 = u) as [-> ->] by (split; congruence).
    destruct (RotateGen_dir level level (o fuel) (o' fuel) crs None tmp tmp' k rk out out' u HL (O fuel) (O' fuel) MT MT' QT QO ZT ZO MO MO' HU) as (u' & HU' & QU & MU & MU' & ZU). unfold Rotate. rewrite HU'. cbn [rbind].
    destruct (Copy_dir (o fuel 9%nat) (o' fuel 9%nat) tmp tmp' u u' ltac:(intros ?; apply O) ltac:(intros ?; apply O') MU MU' QU QT t HT) as (t' & HT' & QT').
    rewrite HT'. cbn [rbind].
    destruct (Copy_keep (o fuel 9%nat) level level tmp u t (le_n _) HT MT ZT ZU) as [MT1 ZT1]. destruct (Copy_keep (o' fuel 9%nat) level level tmp' u' t' (le_n _) HT' MT' (zok_eqc _ _ _ QT ZT) (zok_eqc _ _ _ QU ZU)) as [MT2 _].
    apply (IH _ _ t t' u u' v); assumption.
  Qed.

  Lemma rotate_dir level lin (o o' : nat -> order) crs rk (c c' out out' : ct) rotidx v : (level < length (Qm pp))%nat -> (forall n, order_ok (o n)) -> (forall n, order_ok (o' n)) ->
    mwf c -> mwf c' -> mwf out -> mwf out' -> eqc c c' -> eqc out out' -> zok lin c -> In id0 (keys c) -> zok level out -> lin = level ->
    rotate pp o crs c rotidx rk out = Ok v -> exists v', rotate pp o' crs c' rotidx rk out' = Ok v' /\ eqc v v'.
  Proof.
    intros HL O O' MC MC' MO MO' QC QO ZC I0 ZO -> H. unfold rotate in *. apply rbind_ok in H as (k & HK & H). rewrite HK. cbn [rbind].
    destruct (k =? 0); [apply (Copy_dir (o 0%nat 0%nat) (o' 0%nat 0%nat) out out' c c' ltac:(intros ?; apply O) ltac:(intros ?; apply O') MC MC' QC QO v H)|].
    destruct (mget Z.eq_dec crs k).
    - destruct (RotateGen_dir level level (o 0%nat) (o' 0%nat) crs None c c' k rk out out' v HL (O _) (O' _) MC MC' QC QO ZC ZO MO MO' H) as (v' & A & B & _). exists v'. split; assumption.
    - destruct (CopyNew_dir (o 0%nat 0%nat) (o' 0%nat 0%nat) c c' ltac:(intros ?; apply O) ltac:(intros ?; apply O') MC MC' I0 QC) as (t & t' & A & A' & B & B' & C & D). rewrite A in H. rewrite A'. cbn [rbind] in *.
      apply (rotChain_dir level o o' crs rk HL O O' (Z.to_nat k) 1 k t t' out out' v); trivial. apply (zok_eqc level c t (eqc_sym _ _ C) ZC).
  Qed.
  (** ** conjugation *)
  Definition cjG1 (ctIn : ct) (id : string) (q : poly N) : res (poly N) :=
    p <- cgetL ctIn id L ;; if (length (prows q) <=? L)%nat then Panic else Ok (Pol (permRows pp L (conjEl N) (prows p)) (pntt q)).
  Definition extq level (q : poly N) key : res (list R) := if (length (prows q) <=? level)%nat then Panic else ExternalProduct pp level q key.
  Definition cjG2 level (ck : conjset N) (id : string) (q : poly N) : res (list R * poly N) := key <- ks_get ck id ;; e <- extq level q (cjk_val key) ;; Ok (e, q).
  Definition cjG3 level (crs : crsT N) (id : string) (q : poly N) : res (poly N) := a <- crs_get crs (-2) ;; e <- extq level q a ;; Ok (polyCopy q (Pol e false)).
  Lemma cj1 (ctIn : ct) l c : rfold (fun c id => p <- cgetL ctIn id L ;; _ <- cgetL c id L ;; cwr c id (permRows pp L (conjEl N) (prows p))) l c = rfold (own (cjG1 ctIn)) l c.
  Proof.
    apply rfold_extI. intros b id _. unfold own, cjG1. destruct (cgetL ctIn id L) as [p|]; cbn [rbind]; [|destruct (cget b id); reflexivity].
    unfold cwr. unfold cgetL at 1. destruct (cget b id) as [q|]; cbn [rbind]; [|reflexivity]. destruct (length (prows q) <=? L)%nat; reflexivity.
  Qed.
  Lemma ext_extq level (c : ct) id key : ExtOp pp level None c id key = q <- cget c id ;; extq level q key.
  Proof. unfold ExtOp, cgetL, extq. destruct (cget c id) as [q|]; cbn [rbind]; [|reflexivity]. destruct (length (prows q) <=? level)%nat; reflexivity. Qed.
  Lemma cj2 level ck l (c : ct) : ~ In id0 l ->
    rfold (fun c id => key <- ks_get ck id ;; e <- ExtOp pp level None c id (cjk_val key) ;; q0 <- cget c id0 ;; cwr c id0 (lvlQ2 pp level r_add (prows q0) e)) l c = rfold (acc pp level (cjG2 level ck)) l c.
  Proof.
    intros N0. apply rfold_extI. intros b id I. assert (NE : id <> id0) by (intros EE; subst; contradiction). unfold acc, cjG2, cwr.
    destruct (ks_get ck id) as [key|]; cbn [rbind]; [|destruct (cget b id); reflexivity]. rewrite ext_extq. destruct (cget b id) as [q|] eqn:C; cbn [rbind]; [|reflexivity].
    destruct (extq level q (cjk_val key)) as [e|]; cbn [rbind]; [|reflexivity]. destruct (cget b id0) as [q0|]; cbn [rbind]; [|reflexivity]. f_equal. symmetry. apply mset_same. unfold cset. rewrite mget_mset_neq by exact NE. apply cget_inv. exact C.
  Qed.
  Lemma cj3 level crs l (c : ct) :
    rfold (fun c id => a <- crs_get crs (-2) ;; e <- ExtOp pp level None c id a ;; q <- cget c id ;; Ok (cset c id (polyCopy q (Pol e false)))) l c = rfold (own (cjG3 level crs)) l c.
  Proof.
    apply rfold_extI. intros b id _. unfold own, cjG3. destruct (crs_get crs (-2)) as [a|]; cbn [rbind]; [|destruct (cget b id); reflexivity]. rewrite ext_extq.
    destruct (cget b id) as [q|] eqn:C; cbn [rbind]; [|reflexivity]. destruct (extq level q a); reflexivity.
  Qed.
  Lemma Conjugate_dir o o' crs (ctIn ctIn' : ct) ck out out' v :
    order_ok o -> order_ok o' -> mwf ctIn -> mwf ctIn' -> eqc ctIn ctIn' -> eqc out out' -> zok L ctIn -> zok L out ->
    Conjugate pp o crs ctIn ck out = Ok v -> exists v', Conjugate pp o' crs ctIn' ck out' = Ok v' /\ eqc v v'.
  Proof.
    intros O O' MI MI' QI QO ZI ZO H. pose proof (L_lt pp WF) as HL. unfold Conjugate in *.
    apply rbind_ok in H as (lv & HLv & H). pose proof (zok_level L out ZO lv HLv). subst lv. rewrite <- (eqc_level out out' QO), HLv. cbn [rbind].
    apply rbind_ok in H as (ids & HI & H). destruct (ids_perm (o 0%nat) (o' 0%nat) (o 2%nat) (o' 2%nat) ctIn ctIn' ids ltac:(intros ?; apply O) ltac:(intros ?; apply O') ltac:(intros ?; apply O) ltac:(intros ?; apply O') QI HI) as (ids' & HI' & PI & ND & IL & _).
    destruct (ids_perm (o 0%nat) (o' 0%nat) (o 3%nat) (o' 3%nat) ctIn ctIn' ids ltac:(intros ?; apply O) ltac:(intros ?; apply O') ltac:(intros ?; apply O) ltac:(intros ?; apply O') QI HI) as (ids2 & HI2 & PI3 & ND3 & _). assert (ids2 = ids') by congruence. subst ids2.
    rewrite HI'. cbn [rbind].
    apply rbind_ok in H as (li & HLi & H). pose proof (zok_level L ctIn ZI li HLi). subst li. rewrite <- (eqc_level ctIn ctIn' QI), HLi. cbn [rbind].
    destruct (Nat.ltb_spec L L) as [|_]; [discriminate|].
    assert (N0 : ~ In id0 (o 2%nat (keys ids))) by (intros I; apply IL in I; apply in_parties in I; tauto).
    assert (N0' : ~ In id0 (o' 2%nat (keys ids'))) by (intros I; apply N0; apply (Permutation_in _ (Permutation_sym PI) I)).
    rewrite cj1 in H. rewrite cj1. apply rbind_ok in H as (b & HB & H).
    destruct (keys_perm ctIn ctIn' (o 1%nat) (o' 1%nat) ltac:(intros ?; apply O) ltac:(intros ?; apply O') MI MI' QI) as [P1 ND1].
    rewrite (rfold_extI (own (cjG1 ctIn')) (own (cjG1 ctIn))) by (intros c id _; unfold own, cjG1; rewrite (eqc_cgetL ctIn ctIn' id L QI); reflexivity).
    destruct (own_dir (cjG1 ctIn) _ _ out out' P1 ND1 QO b HB) as (b' & HB' & QB). rewrite HB'. cbn [rbind].
    assert (ZB : zok L b).
    { unfold Determ.zok. refine (own_keep (cjG1 ctIn) _ (rowsok L) id0 _ out b HB ZO). intros q p _ _ G. unfold cjG1, cgetL, cget in G. destruct (mget seq_dec ctIn id0) as [p0|] eqn:E0; cbn [rbind] in G; [|discriminate].
      destruct (length (prows p0) <=? L)%nat; cbn [rbind] in G; [discriminate|]. destruct (length (prows q) <=? L)%nat; [discriminate|].
      destruct (permRows_ok pp WF L (conjEl N) (conjEl N) (prows p0)) as [Y1 Y2]; [pose proof (wf_N _ _ WF); unfold conjEl; lia|apply conj_odd|apply conj_inv|exact HL|apply (ZI p0 E0)|].
      assert (Pol (permRows pp L (conjEl N) (prows p0)) (pntt q) = p) by congruence. subst p. split; [exact Y1|]. intros j Hj. apply Y2. exact Hj. }
    rewrite cj2 in H by exact N0. rewrite cj2 by exact N0'. apply rbind_ok in H as (d & HD & H).
    assert (GC : forall id q e p, In id (o 2%nat (keys ids)) -> cjG2 L ck id q = Ok (e, p) -> canons pp L e).
    { intros id q e p _ G. unfold cjG2 in G. apply rbind_ok in G as (key & _ & G). apply rbind_ok in G as (e1 & G1 & G). assert (e1 = e) by congruence. subst e1. unfold extq in G1. destruct (length (prows q) <=? L)%nat; [discriminate|]. apply (Ext_canon pp WF L q (cjk_val key) e HL G1). }
    destruct (acc_dir pp WF L _ _ _ b b' HL N0 GC PI ND ZB QB d HD) as (d' & HD' & QD). rewrite HD'. cbn [rbind].
    rewrite cj3 in H. rewrite cj3. apply (own_dir (cjG3 L crs) _ _ d d' PI3 ND3 QD v H).
  Qed.
End Ops.
