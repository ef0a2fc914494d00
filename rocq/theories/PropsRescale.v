(** C26, C27, C28, C30: rescaling, dropping levels, plaintext multiplication (mkckks). *)
From Flocq Require Import Core BinarySingleNaN.
From Coq Require Import Znumtheory Setoid Morphisms Reals Lra.
From Verif Require Import Base IdSetModel IdSetSpec IdSetProofs KeySetModel NumTheory Negacyclic Ntt Word BasisExt BasisExtProofs Rows RlweModel KeyGenModel SchemeSpec ExtProd ExtProps Galois KeyGenProofs Instance CtModel CtSpec CtProofs EncDecProofs HeapModel HeapProofs PropsEnc KeySwitchModel Digits KsLoops RotProofs MulProofs PropsKeySwitch FloatModel CkksFloat CkksModel FloatProofs CkksFloatProofs CkksProofs CkksRescale PropsCkks.
Open Scope Z_scope.

(** m' is the quotient of m by D up to the rounding error of a rescaling with n parties whose secrets are bounded by T:
    D m' = m + E with 2|E| <= (D - 1)(1 + n N T) *)
Definition rescaled {N} (D : Z) (n : nat) (T : Z) (m m' : R N) : Prop :=
  exists E, smul D m' = add m E /\ bnd (smul 2 E) ((D - 1) * (1 + Z.of_nat n * (Z.of_nat N * T))).
(** nb is the first number of divisions such that one more would bring the scale below minHalf *)
Definition divisions (pp : rparams) (level : nat) (scale minHalf : f64) (nb : nat) : Prop :=
  (nb <= level)%nat /\ (forall i, (i < nb)%nat -> f_ge (rscale pp level scale (S i)) minHalf = true) /\ f_ge (rscale pp level scale (S nb)) minHalf = false.
Lemma div_count pp level sc mh nb : divisions pp level sc mh nb -> resc_count pp level sc mh nb. Proof. intros H. exact H. Qed.
Lemma dnoise_eq N n T : @dnoise N n T = 1 + Z.of_nat n * (Z.of_nat N * T).
Proof. unfold dnoise. ring. Qed.

(** ** C26 *)
Theorem C26_rescale : forall N pp o (c : ckct N) minScale level nb, wfp N pp -> ord1_ok o -> (1 <= level < length (Qm pp))%nat -> wfct pp level false (cv c) ->
  f_le minScale f_zero = false -> f_eq (csc c) f_zero = false -> divisions pp level (csc c) (f_div minScale (f_of_int 2)) nb ->
  exists v, Rescale pp o c minScale None = Ok (CK v (rscale pp level (csc c) nb), false) /\ wfct pp (level - nb) false v /\
    (forall x, In x (keys v) <-> In x (keys (cv c))) /\
    forall s T m, (forall x, In x (parties (cv c)) -> bnd (s x) T) -> decrypts pp s (cv c) level m ->
      exists m', rescaled (prodl (dropped pp nb level)) (length (parties (cv c))) T m m' /\ decrypts pp s v (level - nb) m'.
Proof.
  intros N pp o c minScale level nb WF O HL W M1 M2 D. apply div_count in D.
  destruct (Rescale_ok pp o c minScale None level nb O HL W (conj M1 M2) D) as (v & E & V1 & V2); [discriminate|].
  exists v. split; [exact E|]. assert (NB : (nb <= level < length (Qm pp))%nat) by (destruct D; lia).
  assert (X : forall s T m, (forall x, In x (parties (cv c)) -> bnd (s x) T) -> decrypts pp s (cv c) level m -> _) by (intros s T m HT HM; exact (Rescale_phase pp WF c level nb v s T m NB W V1 V2 HT HM)).
  assert (SH : wfct pp (level - nb) false v /\ forall x, In x (keys v) <-> In x (keys (cv c))).
  { destruct (decrypts_some N pp (fun _ => R0) (cv c) level WF ltac:(lia)) as [m Hm].
    destruct (X (fun _ => R0) 0 m) as (A & B & _); [intros x _ i Hi; rewrite co_R0; lia|exact Hm|]. split; assumption. }
  split; [apply SH|]. split; [apply SH|]. intros s T m HT HM. destruct (X s T m HT HM) as (_ & _ & m' & E' & E1 & E2 & E3).
  exists m'. split; [|exact E3]. exists E'. split; [exact E1|]. rewrite <- dnoise_eq. exact E2.
Qed.
Print Assumptions C26_rescale.
(** the number of divisions exists (and is unique) unless the scale stays large enough down to the last modulus *)
Theorem C26_count : forall pp level scale minHalf,
  (exists! nb, divisions pp level scale minHalf nb) \/ (forall i, (i <= level)%nat -> f_ge (rscale pp level scale (S i)) minHalf = true).
Proof.
  intros pp level sc mh. pose proof (rescLoop_gen pp level sc mh (level + 2) 0 ltac:(lia) ltac:(lia)) as X.
  destruct (rescLoop pp (level + 2) level 0 (rscale pp level sc 0) mh) as [[s' n]|].
  - left. destruct X as (A & _ & B & C). exists n. split; [split; [lia|split; [intros i Hi; apply B; lia|exact C]]|]. intros k (K1 & K2 & K3).
    destruct (lt_eq_lt_dec n k) as [[L|E]|G]; [rewrite (K2 n L) in C; discriminate|exact E|rewrite B in K3 by lia; discriminate].
  - right. intros i Hi. apply X. lia.
Qed.
Print Assumptions C26_count.
(** in that case Rescale panics (the loop reads Modulus[-1]) *)
Theorem C26_panics : forall N pp o (c : ckct N) minScale out level, (1 <= level)%nat -> wfct pp level false (cv c) ->
  f_le minScale f_zero = false -> f_eq (csc c) f_zero = false -> (forall i, (i <= level)%nat -> f_ge (rscale pp level (csc c) (S i)) (f_div minScale (f_of_int 2)) = true) ->
  Rescale pp o c minScale out = Panic.
Proof.
  intros N pp o c minScale out level HL W M1 M2 H. unfold Rescale. rewrite M1, M2, (wfct_level pp _ _ _ W). cbn [rbind]. destruct (Nat.eqb_spec level 0); [lia|].
  rewrite (rescLoop_panic pp _ _ _ H). reflexivity.
Qed.
Print Assumptions C26_panics.
(** errors are reported and nothing is changed *)
Theorem C26_errors : forall N pp o (c : ckct N) minScale (out : option (ckct N)) level, wfct pp level false (cv c) ->
  f_le minScale f_zero = true \/ f_eq (csc c) f_zero = true \/ level = 0%nat ->
  Rescale pp o c minScale out = Ok (match out with Some d => d | None => c end, true).
Proof.
  intros N pp o c minScale out level W H. unfold Rescale. destruct (f_le minScale f_zero); [reflexivity|]. destruct (f_eq (csc c) f_zero); [reflexivity|].
  destruct H as [H|[H|H]]; try discriminate. rewrite (wfct_level pp _ _ _ W), H. reflexivity.
Qed.
Print Assumptions C26_errors.

(** ** C27 *)
Lemma RescaleNew_unf {N} pp (o : IdSetModel.order) (c : ckct N) th level : order_ok o -> wfp N pp -> (level < length (Qm pp))%nat -> wfct pp level false (cv c) ->
  exists d, RescaleNew pp o c th = Rescale pp (o 1%nat) c th (Some (CK d (csc c))) /\ wfct pp level false d /\ (forall x, In x (keys d) <-> In x (keys (cv c))) /\
    forall x p, mget seq_dec d x = Some p -> p = Pol (repeat R0 (S level)) false.
Proof.
  intros O WF HL W. unfold RescaleNew. destruct (IDSetOf_ok (o 0%nat) (cv c)) as (ids & A & M & B); [intros l; apply O|]. rewrite A. cbn [rbind].
  rewrite (wfct_level pp _ _ _ W). cbn [rbind]. unfold ckNew. destruct (C03_new_ciphertext N pp (o 2%nat) ids level WF (fun l => O 2%nat l) HL) as (X1 & X2 & _ & X4).
  eexists. split; [reflexivity|]. split; [exact X1|]. split; [|exact X4].
  intros x. rewrite X2. pose proof (B x) as Bx. unfold is_has in Bx. rewrite mhas_In in Bx. rewrite Bx. destruct (string_dec x id0) as [->|n]; [|tauto]. split; [intros _; apply W|tauto].
Qed.
Theorem C27_rescale_new : forall N pp (o : IdSetModel.order) (c : ckct N) threshold level nb, wfp N pp -> order_ok o -> (1 <= level < length (Qm pp))%nat -> wfct pp level false (cv c) ->
  f_le threshold f_zero = false -> f_eq (csc c) f_zero = false -> divisions pp level (csc c) (f_div threshold (f_of_int 2)) nb -> (0 < nb)%nat ->
  exists v, RescaleNew pp o c threshold = Ok (CK v (rscale pp level (csc c) nb), false) /\ wfct pp (level - nb) false v /\
    (forall x, In x (keys v) <-> In x (keys (cv c))) /\
    forall s T m, (forall x, In x (parties (cv c)) -> bnd (s x) T) -> decrypts pp s (cv c) level m ->
      exists m', rescaled (prodl (dropped pp nb level)) (length (parties (cv c))) T m m' /\ decrypts pp s v (level - nb) m'.
Proof.
  intros N pp o c th level nb WF O HL W M1 M2 D HN. destruct (RescaleNew_unf pp o c th level O WF ltac:(lia) W) as (d & E0 & WD & KD & _). rewrite E0. apply div_count in D.
  destruct (Rescale_ok pp (o 1%nat) c th (Some (CK d (csc c))) level nb (fun l => O 1%nat l) HL W (conj M1 M2) D) as (v & E & V1 & _).
  { intros u Eu. injection Eu as <-. split; [apply (wfct_shape pp); exact WD|exact KD]. }
  exists v. split; [exact E|]. assert (NB : (nb <= level < length (Qm pp))%nat) by (destruct D; lia). assert (V2 : nb = 0%nat -> v = cv c) by lia.
  assert (X : forall s T m, (forall x, In x (parties (cv c)) -> bnd (s x) T) -> decrypts pp s (cv c) level m -> _) by (intros s T m HT HM; exact (Rescale_phase pp WF c level nb v s T m NB W V1 V2 HT HM)).
  assert (SH : wfct pp (level - nb) false v /\ forall x, In x (keys v) <-> In x (keys (cv c))).
  { destruct (decrypts_some N pp (fun _ => R0) (cv c) level WF ltac:(lia)) as [m Hm].
    destruct (X (fun _ => R0) 0 m) as (A & B & _); [intros x _ i Hi; rewrite co_R0; lia|exact Hm|]. split; assumption. }
  split; [apply SH|]. split; [apply SH|]. intros s T m HT HM. destruct (X s T m HT HM) as (_ & _ & m' & E' & E1 & E2 & E3).
  exists m'. split; [|exact E3]. exists E'. split; [exact E1|]. rewrite <- dnoise_eq. exact E2.
Qed.
Print Assumptions C27_rescale_new.
(** no division needed: the result is the all-zero ciphertext, without an error *)
Theorem C27_refuted : forall N pp (o : IdSetModel.order) (c : ckct N) threshold level, wfp N pp -> order_ok o -> (1 <= level < length (Qm pp))%nat -> wfct pp level false (cv c) ->
  f_le threshold f_zero = false -> f_eq (csc c) f_zero = false -> divisions pp level (csc c) (f_div threshold (f_of_int 2)) 0 ->
  exists v, RescaleNew pp o c threshold = Ok (CK v (csc c), false) /\ (forall x, In x (keys v) <-> In x (keys (cv c))) /\
    forall s j, (j <= level)%nat -> phase pp s v j = R0.
Proof.
  intros N pp o c th level WF O HL W M1 M2 D. destruct (RescaleNew_unf pp o c th level O WF ltac:(lia) W) as (d & E0 & WD & KD & ZD). rewrite E0. apply div_count in D.
  destruct (Rescale_ok pp (o 1%nat) c th (Some (CK d (csc c))) level 0 (fun l => O 1%nat l) HL W (conj M1 M2) D) as (v & E & _ & V2).
  { intros u Eu. injection Eu as <-. split; [apply (wfct_shape pp); exact WD|exact KD]. }
  exists v. split; [exact E|]. rewrite (V2 eq_refl). cbn [cv]. split; [exact KD|]. intros s j Hj.
  assert (PV : forall x, In x (keys d) -> pvalue pp (comp d x) j = R0).
  { intros x Hx. pose proof (mget_comp d x Hx) as G. rewrite (ZD x _ G). unfold pvalue. cbn [pntt prows]. unfold row. clear. revert j. generalize (S level). induction n as [|n IH]; intros [|j]; cbn; trivial. }
  unfold phase. rewrite PV by apply WD. rewrite Lsum_zero; [apply R_ext; intros i Hi; rewrite co_add, !co_R0; reflexivity|].
  intros x Hx. apply in_parties in Hx as [_ Hx]. rewrite PV by assumption. apply mul_0_l.
Qed.
Print Assumptions C27_refuted.

(** ** C28 *)
Theorem C28_drop_level : forall N pp o (c : ckct N) level k, wfp N pp -> ord1_ok o -> (k <= level)%nat -> wfct pp level false (cv c) ->
  exists v, DropLevel pp o c k = Ok (CK v (csc c)) /\ wfct pp (level - k) false v /\ ctLevel v = Ok (level - k)%nat /\ (forall x, In x (keys v) <-> In x (keys (cv c))) /\
    forall s j, (j <= level - k)%nat -> phase pp s v j = phase pp s (cv c) j.
Proof.
  intros N pp o c level k WF O H W. destruct (DropLevel_ok pp o c level k O H W) as (v & A & B & C & _ & D). exists v. split; [exact A|]. split; [exact B|]. split; [apply (wfct_level pp _ _ _ B)|]. split; assumption.
Qed.
Print Assumptions C28_drop_level.
Theorem C28_drop_level_new : forall N pp (o : IdSetModel.order) (c : ckct N) level k, wfp N pp -> order_ok o -> (k <= level)%nat -> wfct pp level false (cv c) ->
  exists v, DropLevelNew pp o c k = Ok (CK v (csc c)) /\ wfct pp (level - k) false v /\ ctLevel v = Ok (level - k)%nat /\ (forall x, In x (keys v) <-> In x (keys (cv c))) /\
    forall s j, (j <= level - k)%nat -> phase pp s v j = phase pp s (cv c) j.
Proof.
  intros N pp o c level k WF O H W. unfold DropLevelNew, ckCopyNew.
  destruct (CopyNew_ok (o 0%nat) (cv c) (fun l => O 0%nat l) (proj1 W) (proj1 (proj2 W))) as (v & A & B & C). rewrite A. cbn [rbind].
  assert (KV : forall x, In x (keys v) <-> In x (keys (cv c))) by (intros x; rewrite <- !(mget_In_keys seq_dec), C; reflexivity).
  assert (WV : wfct pp level false v) by (split; [exact B|split; [apply KV, W|intros x p; rewrite C; apply W]]).
  destruct (C28_drop_level N pp (o 1%nat) (CK v (csc c)) level k WF (fun l => O 1%nat l) H WV) as (u & U1 & U2 & U3 & U4 & U5). cbn [csc cv] in *.
  exists u. split; [exact U1|]. split; [exact U2|]. split; [exact U3|]. split; [intros x; rewrite U4; apply KV|]. intros s j Hj. rewrite U5 by assumption.
  apply phase_eq; [exact B|apply W|exact KV|]. intros x Hx. unfold comp. rewrite C. reflexivity.
Qed.
Print Assumptions C28_drop_level_new.
Theorem C28_too_many : forall N pp o (c : ckct N) level k, (S level < k)%nat -> wfct pp level false (cv c) -> DropLevel pp o c k = Panic.
Proof. intros N pp o c level k. apply DropLevel_too_many. Qed.
Print Assumptions C28_too_many.

(** on the heap: DropLevelNew writes only to the objects of its copy *)
Section HDrop.
  Context {N : nat}.
  (** evaluator.go:106-112 through references *)
  Definition hDropLevel pp (o : list string -> list string) (h : heap N) (c : hct) (levels : nat) : res (heap N) :=
    p0 <- hread h c id0 ;;
    let level := plevel p0 in
    if (S level <? levels)%nat then Panic else
    rfold (fun h id => p <- hread h c id ;; p <- cutRows pp (S level - levels) p ;; hwrite h c id p) (o (keys c)) h.
  (** evaluator.go:98-102 *)
  Definition hDropLevelNew pp (o : IdSetModel.order) (h : heap N) (c : hct) (levels : nat) : res (heap N * hct) :=
    '(h, d) <- hCopyNew (o 0%nat) h c ;; h <- hDropLevel pp (o 1%nat) h d levels ;; Ok (h, d).
  Lemma hDropLevel_ok pp o n h (d : hct) k sc : hok h d -> above n d -> (forall l x, In x (o l) -> In x l) ->
    match DropLevel pp o (CK (view h d) sc) k with
    | Panic => hDropLevel pp o h d k = Panic
    | Ok u => exists h', hDropLevel pp o h d k = Ok h' /\ u = CK (view h' d) sc /\ hok h' d /\ frame n h h'
    end.
  Proof.
    intros K A OI. unfold DropLevel, hDropLevel. cbn [cv csc]. unfold ctLevel. rewrite (hread_view _ _ _ K), keys_view.
    destruct (cget (view h d) id0) as [p0|]; cbn [rbind]; [|reflexivity]. destruct (S (plevel p0) <? k)%nat; [reflexivity|]. set (m := (S (plevel p0) - k)%nat). clearbody m.
    assert (G : forall l h1, (forall x, In x l -> In x (keys d)) -> hok h1 d -> frame n h h1 ->
      match rfold (fun c id => p <- cget c id ;; p <- cutRows pp m p ;; Ok (cset c id p)) l (view h1 d) with
      | Panic => rfold (fun h id => p <- hread h d id ;; p <- cutRows pp m p ;; hwrite h d id p) l h1 = Panic
      | Ok v => exists h', rfold (fun h id => p <- hread h d id ;; p <- cutRows pp m p ;; hwrite h d id p) l h1 = Ok h' /\ v = view h' d /\ hok h' d /\ frame n h h'
      end).
    { induction l as [|id l IH]; intros h1 Hl K1 F1; cbn [rfold]; [exists h1; repeat (split; [first [reflexivity|assumption]|]); assumption|].
      rewrite (hread_view _ _ _ K1). destruct (cget (view h1 d) id) as [p|]; cbn [rbind]; [|reflexivity]. destruct (cutRows pp m p) as [p'|]; cbn [rbind]; [|reflexivity].
      destruct (hwrite_ok h1 d id p' K1 (Hl id (or_introl eq_refl))) as (r & R1 & R2 & R3 & R4 & R5). rewrite R2. cbn [rbind]. rewrite <- R3.
      apply IH; [intros x Hx; apply Hl; right; assumption|exact R4|]. destruct F1 as [F1 F2]. split; [rewrite upd_len; exact F1|].
      intros x Hx. rewrite upd_nth_neq; [apply F2; assumption|]. apply mget_ref in R1. apply A in R1. lia. }
    specialize (G (o (keys d)) h (OI _) K). assert (F0 : frame n h h) by (split; [lia|reflexivity]). specialize (G F0).
    destruct (rfold (fun c id => p <- cget c id ;; p <- cutRows pp m p ;; Ok (cset c id p)) (o (keys d)) (view h d)) as [v|]; cbn [rbind].
    - destruct G as (h' & G1 & -> & G2 & G3). exists h'. split; [exact G1|]. split; [reflexivity|]. split; assumption.
    - exact G.
  Qed.
End HDrop.
Theorem C28_argument_unchanged : forall N pp (o : IdSetModel.order) (h : heap N) (c : hct) k scale, order_ok o -> hok h c ->
  match hDropLevelNew pp o h c k with
  | Panic => DropLevelNew pp o (CK (view h c) scale) k = Panic
  | Ok (h', d) => DropLevelNew pp o (CK (view h c) scale) k = Ok (CK (view h' d) scale) /\ view h' c = view h c /\
      forall r, (r < length h)%nat -> nth r h' dpoly = nth r h dpoly
  end.
Proof.
  intros N pp o h c k sc O K. unfold hDropLevelNew, DropLevelNew, ckCopyNew. cbn [cv csc].
  assert (OI : forall n l x, In x (o n l) -> In x l) by (intros n l x; apply Permutation_in; apply O).
  pose proof (hCopyNew_ok (o 0%nat) h c K (OI 0%nat)) as C. destruct (CopyNew (o 0%nat) (view h c)) as [v|]; [|rewrite C; reflexivity].
  destruct C as (h1 & d & C1 & <- & C3 & C4 & C5). rewrite C1. cbn [rbind].
  pose proof (hDropLevel_ok pp (o 1%nat) (length h) h1 d k sc C3 C4 (OI 1%nat)) as D. destruct (DropLevel pp (o 1%nat) (CK (view h1 d) sc) k) as [u|].
  - destruct D as (h' & D1 & -> & D3 & D4). rewrite D1. cbn [rbind]. split; [reflexivity|].
    assert (F : forall r, (r < length h)%nat -> nth r h' dpoly = nth r h dpoly) by (intros r Hr; rewrite (proj2 D4 r Hr); apply C5; assumption).
    split; [|exact F]. unfold view. apply map_ext_in. intros [id r] I. f_equal. apply F. apply K. apply (in_map snd) in I. exact I.
  - rewrite D. reflexivity.
Qed.
Print Assumptions C28_argument_unchanged.

(** ** C30.  [w] is the integer polynomial of the plaintext *)
Definition plain_of {N} (pp : rparams) (level : nat) (pt : poly N) (w : R N) : Prop := forall j, (j <= level)%nat -> eqm (mq (Qi pp j)) (row (prows pt) j) w.
Lemma MulPtxt_pre {N} pp (o : IdSetModel.order) pscale st (c : ckct N) (pt : poly N) ptScale level : wfp N pp -> order_ok o -> pool_ok pp st -> (level < length (Qm pp))%nat -> wfct pp level false (cv c) ->
  (level < length (prows pt))%nat -> (forall j, (j <= level)%nat -> inr (Qi pp j) (row (prows pt) j)) ->
  exists pool v, (MulPtxtNew pp o pscale st c pt ptScale = '(out, _) <- Rescale pp (o 3%nat) (CK v (f_mul (csc c) ptScale)) pscale None ;; Ok (EV (ctxtPool st) pool, out)) /\
    pool_ok pp (EV (ctxtPool st) pool) /\ wfct pp level false v /\ (forall x, In x (keys v) <-> In x (keys (cv c))) /\
    forall s j, (j <= level)%nat -> eqm (mq (Qi pp j)) (phase pp s v j) (mul (row (prows pt) j) (phase pp s (cv c) j)).
Proof.
  intros WF O [PS PL] HL W LP IP. unfold MulPtxtNew. destruct (IDSetOf_ok (o 0%nat) (cv c)) as (ids & A & M & B); [intros l; apply O|]. rewrite A. cbn [rbind].
  rewrite (wfct_level pp _ _ _ W). cbn [rbind]. destruct (Nat.leb_spec (length (prows pt)) level); [lia|].
  assert (LM : maxLevel pp = (length (Qm pp) - 1)%nat) by reflexivity.
  set (new := lvlQ1 pp level r_mform (lvlQ1 pp level ntt (prows pt))).
  assert (LN : length new = S level) by (unfold new, lvlQ1; apply tab_length).
  unfold wrLvl. destruct (Nat.leb_spec (length (polyQPool st)) level); [lia|]. cbn [rbind].
  set (pool := firstn (S level) new ++ skipn (S level) (polyQPool st)). exists pool.
  unfold ckNew. cbn [cv csc]. destruct (C03_new_ciphertext N pp (o 1%nat) ids level WF (fun l => O 1%nat l) HL) as (X1 & X2 & _ & X4).
  assert (KO : forall x, In x (keys (NewCiphertext (N := N) (o 1%nat) ids level)) <-> In x (keys (cv c))).
  { intros x. rewrite X2. pose proof (B x) as Bx. unfold is_has in Bx. rewrite mhas_In in Bx. rewrite Bx. destruct (string_dec x id0) as [->|n]; [|tauto]. split; [intros _; apply W|tauto]. }
  destruct (mulpt_ok pp WF o c level pt pool (NewCiphertext (o 1%nat) ids level) (o 2%nat) (fun l => O 2%nat l) HL W (wfct_shape pp _ _ X1) KO IP) as (v & V1 & V2 & V3 & V4).
  { intros j Hj. unfold pool, row. rewrite app_nth1 by (rewrite firstn_length; lia). rewrite nth_firstn by lia. fold (row new j). unfold new, lvlQ1. rewrite !row_tab by lia. reflexivity. }
  rewrite V1. cbn [rbind]. exists v. split; [reflexivity|]. split; [|split; [exact V2|split; [exact V3|exact V4]]].
  split; [exact PS|]. cbn [polyQPool]. unfold pool. rewrite app_length, firstn_length, skipn_length. lia.
Qed.
Theorem C30_mul_plaintext : forall N pp (o : IdSetModel.order) pscale st (c : ckct N) (pt : poly N) ptScale level nb, wfp N pp -> order_ok o -> pool_ok pp st ->
  (1 <= level < length (Qm pp))%nat -> wfct pp level false (cv c) -> (level < length (prows pt))%nat -> (forall j, (j <= level)%nat -> inr (Qi pp j) (row (prows pt) j)) ->
  f_le pscale f_zero = false -> f_eq (f_mul (csc c) ptScale) f_zero = false -> divisions pp level (f_mul (csc c) ptScale) (f_div pscale (f_of_int 2)) nb ->
  exists st' v, MulPtxtNew pp o pscale st c pt ptScale = Ok (st', CK v (rscale pp level (f_mul (csc c) ptScale) nb)) /\ pool_ok pp st' /\ wfct pp (level - nb) false v /\
    (forall x, In x (keys v) <-> In x (keys (cv c))) /\
    forall s T m w, (forall x, In x (parties (cv c)) -> bnd (s x) T) -> decrypts pp s (cv c) level m -> plain_of pp level pt w ->
      exists m', rescaled (prodl (dropped pp nb level)) (length (parties (cv c))) T (mul w m) m' /\ decrypts pp s v (level - nb) m'.
Proof.
  intros N pp o pscale st c pt ptScale level nb WF O PO HL W LP IP M1 M2 D.
  destruct (MulPtxt_pre pp o pscale st c pt ptScale level WF O PO ltac:(lia) W LP IP) as (pool & v & E & P & V1 & V2 & V3). rewrite E.
  destruct (C26_rescale N pp (o 3%nat) (CK v (f_mul (csc c) ptScale)) pscale level nb WF (fun l => O 3%nat l) HL V1 M1 M2 D) as (u & U1 & U2 & U3 & U4). cbn [cv csc] in *.
  rewrite U1. cbn [rbind]. exists (EV (ctxtPool st) pool), u. split; [reflexivity|]. split; [exact P|]. split; [exact U2|]. split; [intros x; rewrite U3; apply V2|].
  intros s T m w HT HM HW.
  assert (LPn : length (parties v) = length (parties (cv c))).
  { apply Permutation_length. apply NoDup_Permutation; [apply parties_nodup; apply V1|apply parties_nodup; apply W|]. intros x. rewrite !in_parties, V2. reflexivity. }
  rewrite <- LPn. apply U4.
  - intros x Hx. apply HT. apply in_parties. apply in_parties in Hx. rewrite <- V2. exact Hx.
  - intros j Hj. eapply eqm_trans; [apply V3; assumption|]. apply eqm_mul; [apply HW; assumption|apply HM; assumption].
Qed.
Print Assumptions C30_mul_plaintext.
(** at level 0 the product is returned without rescaling *)
Theorem C30_level0 : forall N pp (o : IdSetModel.order) pscale st (c : ckct N) (pt : poly N) ptScale, wfp N pp -> order_ok o -> pool_ok pp st ->
  wfct pp 0 false (cv c) -> (0 < length (prows pt))%nat -> inr (Qi pp 0) (row (prows pt) 0) ->
  exists st' v, MulPtxtNew pp o pscale st c pt ptScale = Ok (st', CK v (f_mul (csc c) ptScale)) /\ pool_ok pp st' /\ wfct pp 0 false v /\
    (forall x, In x (keys v) <-> In x (keys (cv c))) /\
    forall s m w, decrypts pp s (cv c) 0 m -> plain_of pp 0 pt w -> decrypts pp s v 0 (mul w m).
Proof.
  intros N pp o pscale st c pt ptScale WF O PO W LP IP.
  assert (L0 : (0 < length (Qm pp))%nat) by apply WF.
  destruct (MulPtxt_pre pp o pscale st c pt ptScale 0 WF O PO L0 W LP) as (pool & v & E & P & V1 & V2 & V3). { intros j Hj. replace j with 0%nat by lia. exact IP. }
  rewrite E. rewrite (C26_errors N pp (o 3%nat) (CK v (f_mul (csc c) ptScale)) pscale None 0 V1) by tauto. cbn [rbind].
  exists (EV (ctxtPool st) pool), v. split; [reflexivity|]. split; [exact P|]. split; [exact V1|]. split; [exact V2|].
  intros s m w HM HW j Hj. eapply eqm_trans; [apply V3; assumption|]. apply eqm_mul; [apply HW; assumption|apply HM; assumption].
Qed.
Print Assumptions C30_level0.
