(** C73: evaluation uses the keys of the participants and no others: keys of other parties never change a result, and a missing key of a participant is always reported (panic).
    Specification: [needs] and [rk_same] below; [parties c] (CtModel.v) are the identities of c other than "0". *)
From Flocq Require Import Core BinarySingleNaN.
From Coq Require Import Znumtheory Setoid Morphisms Reals Lra Permutation.
From Verif Require Import Base IdSetModel IdSetSpec IdSetProofs KeySetModel NumTheory Negacyclic Ntt Word BasisExt BasisExtProofs Rows RlweModel KeyGenModel SchemeSpec ExtProd ExtProps Galois KeyGenProofs Instance CtModel CtSpec CtProofs EncDecProofs HeapModel HeapProofs PropsEnc KeySwitchModel Digits KsLoops RotProofs MulProofs PropsKeySwitch IndexModel PropsIndex FloatModel CkksFloat CkksModel FloatProofs CkksFloatProofs CkksProofs CkksRescale PropsCkks PropsRescale PropsConst PropsMulRelin PropsCkksEx Slots PropsSlots PropsRotate BfvModel PropsBfv BfvMulModel.
Open Scope Z_scope.

(** the rotation keys a rotation by r (already reduced modulo N/2) asks for: none for 0, the key of r if the CRS has an entry for r, else the keys of the powers of two that add up to r *)
Definition needs {N} (crs : crsT N) (r m : Z) : Prop :=
  r <> 0 /\ match mget Z.eq_dec crs r with Some _ => m = r | None => exists i, 0 <= i /\ Z.testbit r i = true /\ m = 2 ^ i end.
(** the key of party id for amount m *)
Definition rk_of {N} (rk : rotset N) (id : string) (m : Z) : option (rotKey N) := match mget seq_dec rk id with Some inner => mget Z.eq_dec inner m | None => None end.

Section Uses.
  Context {N : nat}.
  Notation R := (R N). Notation ct := (ctT N).
  Notation order := IdSetModel.order.

  Lemma rfold_ext_in {A B} (f g : B -> A -> res B) l : (forall b x, In x l -> f b x = g b x) -> forall b, rfold f l b = rfold g l b.
  Proof using. clear. induction l as [|x l IH]; intros H b; [reflexivity|]. cbn [rfold]. rewrite (H b x (or_introl eq_refl)). destruct (g b x) as [b'|]; [|reflexivity]. cbn [rbind]. apply IH. intros c y Hy. apply H. right. exact Hy. Qed.
  Lemma rfold_panic {A B} (f : B -> A -> res B) l x : In x l -> (forall b, f b x = Panic) -> forall b, rfold f l b = Panic.
  Proof using. clear. induction l as [|y l IH]; intros I H b; [destruct I|]. cbn [rfold]. destruct (f b y) as [b'|] eqn:E; [|reflexivity]. cbn [rbind]. destruct I as [->|I]; [rewrite H in E; discriminate|]. apply IH; assumption. Qed.
  Lemma rfold_inv {A B} (P : B -> Prop) (f : B -> A -> res B) l : (forall b x b', In x l -> f b x = Ok b' -> P b -> P b') -> forall b b', rfold f l b = Ok b' -> P b -> P b'.
  Proof using. clear. induction l as [|x l IH]; intros H b b' E Pb; cbn [rfold] in E; [congruence|]. destruct (f b x) as [b1|] eqn:E1; [|discriminate]. cbn [rbind] in E. apply (IH ltac:(intros c y c' Hy; apply H; right; exact Hy) b1 b' E). apply (H b x b1 (or_introl eq_refl) E1 Pb). Qed.
  Lemma rbind_ext {A B} (r : res A) (f g : A -> res B) : (forall a, r = Ok a -> f a = g a) -> rbind r f = rbind r g.
  Proof using. clear. intros H. destruct r as [a|]; [apply H; reflexivity|reflexivity]. Qed.
  Lemma rbind_panic {A B} (r : res A) (f : A -> res B) : (forall a, r = Ok a -> f a = Panic) -> rbind r f = Panic.
  Proof using. clear. intros H. destruct r as [a|]; [apply H; reflexivity|reflexivity]. Qed.

  Lemma ids_list (o o' : list string -> list string) (c : ct) ids : ord1_ok o -> ord1_ok o' -> IDSetOf o c = Ok ids -> forall x, In x (o' (keys ids)) <-> In x (parties c).
  Proof.
    intros O O' E x. destruct (IDSetOf_ok o c O) as (ids' & A & _ & B). assert (X : ids' = ids) by congruence. subst ids'.
    rewrite in_parties, <- (B x). unfold is_has. rewrite mhas_In. split; intros H; [apply (Permutation_in _ (O' _))|apply (Permutation_in _ (Permutation_sym (O' _)))]; exact H.
  Qed.

  (** *** mkckks multiplication *)
  Lemma rlk_get_same (rs rs' : rlkset N) id : mget seq_dec rs id = mget seq_dec rs' id -> rlk_get rs id = rlk_get rs' id.
  Proof. intros E. unfold rlk_get. rewrite E. reflexivity. Qed.
  Lemma genVec_same pp level sel h (op : ct) (rs rs' : rlkset N) l : (forall id, In id l -> mget seq_dec rs id = mget seq_dec rs' id) -> genVec pp level sel h op rs l = genVec pp level sel h op rs' l.
  Proof. intros H. unfold genVec. f_equal. apply rfold_ext_in. intros b x Hx. apply rbind_ext. intros ds _. rewrite (rlk_get_same rs rs' x (H x Hx)). reflexivity. Qed.
  Lemma genVec_panic pp level sel h (op : ct) (rs : rlkset N) l id : In id l -> mget seq_dec rs id = None -> genVec pp level sel h op rs l = Panic.
  Proof. intros I E. unfold genVec. rewrite (rfold_panic _ l id I); [reflexivity|]. intros b. apply rbind_panic. intros ds _. unfold rlk_get. rewrite E. reflexivity. Qed.
  Lemma vStageH_same pp level o crs (rs rs' : rlkset N) h0 (op0 : ct) ids0 y out : (forall id, In id (o 8%nat (keys ids0)) -> mget seq_dec rs id = mget seq_dec rs' id) ->
    vStageH pp level o crs rs h0 op0 ids0 y out = vStageH pp level o crs rs' h0 op0 ids0 y out.
  Proof. intros H. unfold vStageH. apply rfold_ext_in. intros b x Hx. rewrite (rlk_get_same rs rs' x (H x Hx)). reflexivity. Qed.

  Lemma mulH_same pp (o : order) crs (op0 op1 : ct) h0 h1 (rs rs' : rlkset N) out : order_ok o -> (forall id, In id (parties op0) \/ In id (parties op1) -> mget seq_dec rs id = mget seq_dec rs' id) ->
    MulAndRelinHoisted pp o crs op0 op1 h0 h1 rs out = MulAndRelinHoisted pp o crs op0 op1 h0 h1 rs' out.
  Proof.
    intros O H. unfold MulAndRelinHoisted. apply rbind_ext. intros level _. apply rbind_ext. intros l0 _. destruct (l0 <? level)%nat; [reflexivity|].
    apply rbind_ext. intros ids0 E0. apply rbind_ext. intros ids1 E1.
    assert (K0 : forall n x, In x (o n (keys ids0)) <-> In x (parties op0)) by (intros n x; apply (ids_list (o 0%nat) (o n) op0 ids0); [intros l; apply O|intros l; apply O|exact E0]).
    assert (K1 : forall n x, In x (o n (keys ids1)) <-> In x (parties op1)) by (intros n x; apply (ids_list (o 1%nat) (o n) op1 ids1); [intros l; apply O|intros l; apply O|exact E1]).
    rewrite (genVec_same pp level rlk_d h0 op0 rs rs') by (intros id I; apply H; left; apply (K0 2%nat); exact I). apply rbind_ext. intros x _.
    rewrite (genVec_same pp level rlk_b h1 op1 rs rs') by (intros id I; apply H; right; apply (K1 3%nat); exact I). apply rbind_ext. intros y _.
    apply rbind_ext. intros out1 _. apply rbind_ext. intros out2 _. apply vStageH_same. intros id I. apply H. left. apply (K0 8%nat). exact I.
  Qed.
  Lemma mulH_panic pp (o : order) crs (op0 op1 : ct) h0 h1 (rs : rlkset N) out id : order_ok o -> In id (parties op0) \/ In id (parties op1) -> mget seq_dec rs id = None ->
    MulAndRelinHoisted pp o crs op0 op1 h0 h1 rs out = Panic.
  Proof.
    intros O I M. unfold MulAndRelinHoisted. apply rbind_panic. intros level _. apply rbind_panic. intros l0 _. destruct (l0 <? level)%nat; [reflexivity|].
    apply rbind_panic. intros ids0 E0. apply rbind_panic. intros ids1 E1.
    assert (K0 : forall n x, In x (o n (keys ids0)) <-> In x (parties op0)) by (intros n x; apply (ids_list (o 0%nat) (o n) op0 ids0); [intros l; apply O|intros l; apply O|exact E0]).
    assert (K1 : forall n x, In x (o n (keys ids1)) <-> In x (parties op1)) by (intros n x; apply (ids_list (o 1%nat) (o n) op1 ids1); [intros l; apply O|intros l; apply O|exact E1]).
    destruct I as [I|I].
    - rewrite (genVec_panic pp level rlk_d h0 op0 rs _ id) by (try (apply (K0 2%nat)); assumption). reflexivity.
    - apply rbind_panic. intros x _. rewrite (genVec_panic pp level rlk_b h1 op1 rs _ id) by (try (apply (K1 3%nat)); assumption). reflexivity.
  Qed.
  Lemma mulHNew_same pp (o : order) crs ps (c0 c1 : ckct N) h0 h1 (rs rs' : rlkset N) : order_ok o -> (forall id, In id (parties (cv c0)) \/ In id (parties (cv c1)) -> mget seq_dec rs id = mget seq_dec rs' id) ->
    MulRelinHoistedNew pp o crs ps c0 c1 h0 h1 rs = MulRelinHoistedNew pp o crs ps c0 c1 h0 h1 rs'.
  Proof.
    intros O H. unfold MulRelinHoistedNew, mulRelinHoisted. apply rbind_ext. intros out _. apply rbind_ext. intros l0 _. apply rbind_ext. intros l1 _. apply rbind_ext. intros lo _. cbv zeta.
    apply rbind_ext. intros out1 _. rewrite (mulH_same pp o crs (cv c0) (cv c1) h0 h1 rs rs') by assumption. reflexivity.
  Qed.
  Lemma mulHNew_panic pp (o : order) crs ps (c0 c1 : ckct N) h0 h1 (rs : rlkset N) id : order_ok o -> In id (parties (cv c0)) \/ In id (parties (cv c1)) -> mget seq_dec rs id = None ->
    MulRelinHoistedNew pp o crs ps c0 c1 h0 h1 rs = Panic.
  Proof.
    intros O I M. unfold MulRelinHoistedNew, mulRelinHoisted. apply rbind_panic. intros out _. apply rbind_panic. intros l0 _. apply rbind_panic. intros l1 _. apply rbind_panic. intros lo _. cbv zeta.
    apply rbind_panic. intros out1 _. rewrite (mulH_panic pp o crs (cv c0) (cv c1) h0 h1 rs (cv out1) id) by assumption. reflexivity.
  Qed.
  Lemma hoistInto_same pp (o o' : list string -> list string) (rs rs' : rlkset N) (c : ckct N) ids : ord1_ok o -> ord1_ok o' -> IDSetOf o' (cv c) = Ok ids ->
    (forall id, In id (parties (cv c)) -> mget seq_dec rs id = mget seq_dec rs' id) -> hoistInto pp o rs c ids = hoistInto pp o rs' c ids.
  Proof.
    intros O O' E H. unfold hoistInto. apply rbind_ext. intros level _. apply rfold_ext_in. intros b x Hx. apply rbind_ext. intros p _.
    rewrite (rlk_get_same rs rs' x); [reflexivity|]. apply H. apply (ids_list o' o (cv c) ids O' O E). exact Hx.
  Qed.
  Lemma mulNew_same pp (o : order) crs ps (c0 c1 : ckct N) same (rs rs' : rlkset N) : order_ok o -> (forall id, In id (parties (cv c0)) \/ In id (parties (cv c1)) -> mget seq_dec rs id = mget seq_dec rs' id) ->
    MulRelinNew pp o crs ps c0 c1 same rs = MulRelinNew pp o crs ps c0 c1 same rs'.
  Proof.
    intros O H. unfold MulRelinNew. apply rbind_ext. intros ids0 E0. destruct same.
    - rewrite (hoistInto_same pp (o 61%nat) (o 60%nat) rs rs' c0 ids0 (O 61%nat) (O 60%nat) E0) by (intros id I; apply H; left; exact I). apply rbind_ext. intros h _. apply mulHNew_same; assumption.
    - apply rbind_ext. intros ids1 E1. rewrite (hoistInto_same pp (o 61%nat) (o 60%nat) rs rs' c0 ids0 (O 61%nat) (O 60%nat) E0) by (intros id I; apply H; left; exact I). apply rbind_ext. intros h0 _.
      rewrite (hoistInto_same pp (o 63%nat) (o 62%nat) rs rs' c1 ids1 (O 63%nat) (O 62%nat) E1) by (intros id I; apply H; right; exact I). apply rbind_ext. intros h1 _. apply mulHNew_same; assumption.
  Qed.
  Lemma mulNew_panic pp (o : order) crs ps (c0 c1 : ckct N) same (rs : rlkset N) id : order_ok o -> In id (parties (cv c0)) \/ In id (parties (cv c1)) -> mget seq_dec rs id = None ->
    MulRelinNew pp o crs ps c0 c1 same rs = Panic.
  Proof.
    intros O I M. unfold MulRelinNew. apply rbind_panic. intros ids0 _. destruct same.
    - apply rbind_panic. intros h _. apply (mulHNew_panic pp o crs ps c0 c1 _ _ rs id); assumption.
    - apply rbind_panic. intros ids1 _. apply rbind_panic. intros h0 _. apply rbind_panic. intros h1 _. apply (mulHNew_panic pp o crs ps c0 c1 _ _ rs id); assumption.
  Qed.

  (** *** rotations *)
  Lemma rk_get_of (rk : rotset N) id m : rk_get rk id m = match rk_of rk id m with Some k => Ok k | None => Panic end.
  Proof. unfold rk_get, rk_of. destruct (mget seq_dec rk id); reflexivity. Qed.
  Lemma rotGen_same pp (o : order) crs h (c : ct) k (rk rk' : rotset N) out : (2 <= N)%nat -> order_ok o -> 0 <= k -> (forall id, In id (parties c) -> rk_of rk id k = rk_of rk' id k) ->
    RotateGen pp o crs h c k rk out = RotateGen pp o crs h c k rk' out.
  Proof.
    intros HN O Hk H. unfold RotateGen. apply rbind_ext. intros level _. apply rbind_ext. intros ids E. apply rbind_ext. intros lin _. destruct (lin <? level)%nat; [reflexivity|].
    rewrite norm_rot_ok by exact HN. destruct (Z.ltb_spec k 0); [lia|]. cbn [rbind]. apply rbind_ext. intros p0 _. apply rbind_ext. intros q0 _. cbv zeta. f_equal.
    apply rfold_ext_in. intros b x Hx. rewrite !rk_get_of, (H x); [reflexivity|]. apply (ids_list (o 0%nat) (o 1%nat) c ids (O 0%nat) (O 1%nat) E). exact Hx.
  Qed.
  Lemma rotGen_panic pp (o : order) crs h (c : ct) k (rk : rotset N) out id : (2 <= N)%nat -> order_ok o -> 0 <= k -> In id (parties c) -> rk_of rk id k = None ->
    RotateGen pp o crs h c k rk out = Panic.
  Proof.
    intros HN O Hk I M. unfold RotateGen. apply rbind_panic. intros level _. apply rbind_panic. intros ids E. apply rbind_panic. intros lin _. destruct (lin <? level)%nat; [reflexivity|].
    rewrite norm_rot_ok by exact HN. destruct (Z.ltb_spec k 0); [lia|]. cbn [rbind]. apply rbind_panic. intros p0 _. apply rbind_panic. intros q0 _. cbv zeta.
    rewrite (rfold_panic _ (o 1%nat (keys ids)) id); [reflexivity|apply (ids_list (o 0%nat) (o 1%nat) c ids (O 0%nat) (O 1%nat) E); exact I|]. intros b. rewrite rk_get_of, M. reflexivity.
  Qed.
  Lemma cwr_keys (c c' : ct) id rows : cwr c id rows = Ok c' -> forall x, In x (keys c') <-> In x (keys c).
  Proof.
    unfold cwr. destruct (in_dec string_dec id (keys c)) as [I|I]; [|rewrite cget_none by exact I; discriminate]. rewrite cget_comp by exact I. cbn [rbind]. intros E x.
    assert (EC : c' = cset c id (Pol rows (pntt (comp c id)))) by congruence. subst c'. apply keys_upd. exact I.
  Qed.
  Lemma copy_keys (o : list string -> list string) (d s d' : ct) : Copy o d s = Ok d' -> forall x, In x (keys d') <-> In x (keys d).
  Proof.
    unfold Copy. intros E x. apply (rfold_inv (fun c => In x (keys c) <-> In x (keys d)) _ _) with (b := d) in E; [exact E| |tauto].
    intros b y b' _ Eb Pb. destruct (in_dec string_dec y (keys b)) as [I|I]; [|rewrite cget_none in Eb by exact I; discriminate]. rewrite cget_comp in Eb by exact I. cbn [rbind] in Eb.
    destruct (cget s y) as [p|]; [|discriminate]. cbn [rbind] in Eb. assert (EC : b' = cset b y (polyCopy (comp b y) p)) by congruence. subst b'. rewrite keys_upd by exact I. exact Pb.
  Qed.
  Lemma copyNew_parties (o : list string -> list string) (c c' : ct) : ord1_ok o -> CopyNew o c = Ok c' -> forall x, In x (parties c') <-> In x (parties c).
  Proof.
    intros O E x. rewrite !in_parties. unfold CopyNew in E. destruct (cget c id0) as [p0|]; [|discriminate]. cbn [rbind] in E.
    assert (G : forall l (b b' : ct), rfold (fun d id => p <- cget c id ;; Ok (cset d id p)) l b = Ok b' -> In x (keys b') <-> In x (keys b) \/ In x l).
    { induction l as [|y l IH]; intros b b' Eb; cbn [rfold] in Eb; [assert (b' = b) by congruence; subst; cbn [In]; tauto|]. destruct (cget c y) as [p|]; [|discriminate]. cbn [rbind] in Eb.
      rewrite (IH _ _ Eb), keys_cset. cbn [In]. intuition congruence. }
    rewrite (G _ _ _ E), keys_cset. cbn [keys map In]. assert (P : In x (o (keys c)) <-> In x (keys c)) by (split; intros H; [apply (Permutation_in _ (O _))|apply (Permutation_in _ (Permutation_sym (O _)))]; exact H). rewrite P. tauto.
  Qed.
  Lemma chain_same pp (o : nat -> order) crs (rk rk' : rotset N) : (2 <= N)%nat -> (forall n, order_ok (o n)) -> forall fuel k r (tmp out : ct), 0 <= k -> 0 <= r ->
    (forall id i, In id (parties tmp) -> 0 <= i -> Z.testbit r i = true -> rk_of rk id (k * 2 ^ i) = rk_of rk' id (k * 2 ^ i)) ->
    rotChain pp o crs fuel k r rk tmp out = rotChain pp o crs fuel k r rk' tmp out.
  Proof.
    intros HN O. induction fuel as [|fuel IH]; intros k r tmp out Hk Hr H; [reflexivity|]. cbn [rotChain]. destruct (Z.ltb_spec 0 r) as [Hr0|]; [|reflexivity].
    assert (STEP : forall tmp' : ct, (forall x, In x (parties tmp') <-> In x (parties tmp)) -> forall out', rotChain pp o crs fuel (k * 2) (r / 2) rk tmp' out' = rotChain pp o crs fuel (k * 2) (r / 2) rk' tmp' out').
    { intros tmp' PT out'. apply IH; [lia|apply Z.div_pos; lia|]. intros id i I Hi B. replace (k * 2 * 2 ^ i) with (k * 2 ^ (i + 1)) by (rewrite Z.pow_add_r by lia; ring).
      apply H; [apply PT; exact I|lia|]. replace (i + 1) with (Z.succ i) by lia. rewrite <- Z.div2_bits by lia. exact B. }
    destruct (Z.eqb_spec (r mod 2) 0) as [E|E]; cbn [negb].
    - cbn [rbind]. apply STEP. tauto.
    - unfold Rotate. rewrite (rotGen_same pp (o fuel) crs None tmp k rk rk' out HN (O fuel) Hk).
      + destruct (RotateGen pp (o fuel) crs None tmp k rk' out) as [out'|]; [|reflexivity]. cbn [rbind]. destruct (Copy (o fuel 9%nat) tmp out') as [tmp'|] eqn:EC; [|reflexivity]. cbn [rbind].
        apply STEP. intros x. rewrite !in_parties. rewrite (copy_keys _ _ _ _ EC). tauto.
      + intros id I. specialize (H id 0 I ltac:(lia)). rewrite Z.mul_1_r in H. apply H. rewrite Z.bit0_odd, Zmod_odd in *. destruct (Z.odd r); [reflexivity|congruence].
  Qed.
  Lemma chain_panic pp (o : nat -> order) crs (rk : rotset N) id : (2 <= N)%nat -> (forall n, order_ok (o n)) -> forall fuel k r (tmp out : ct) i, 0 <= k -> 0 <= r -> In id (parties tmp) ->
    0 <= i -> Z.testbit r i = true -> rk_of rk id (k * 2 ^ i) = None -> rotChain pp o crs fuel k r rk tmp out = Panic.
  Proof.
    intros HN O. induction fuel as [|fuel IH]; intros k r tmp out i Hk Hr I Hi B M.
    - cbn [rotChain]. destruct (Z.ltb_spec 0 r); [reflexivity|]. replace r with 0 in B by lia. rewrite Z.bits_0 in B. discriminate.
    - cbn [rotChain]. destruct (Z.ltb_spec 0 r) as [Hr0|]; [|replace r with 0 in B by lia; rewrite Z.bits_0 in B; discriminate].
      assert (STEP : forall tmp' : ct, In id (parties tmp') -> i <> 0 -> forall out', rotChain pp o crs fuel (k * 2) (r / 2) rk tmp' out' = Panic).
      { intros tmp' PT N0 out'. apply (IH (k * 2) (r / 2) tmp' out' (i - 1)); [lia|apply Z.div_pos; lia|exact PT|lia| |].
        - rewrite Z.div2_bits by lia. replace (Z.succ (i - 1)) with i by lia. exact B.
        - replace (k * 2 * 2 ^ (i - 1)) with (k * 2 ^ i); [exact M|]. replace i with (1 + (i - 1)) at 1 by lia. rewrite Z.pow_add_r by lia. ring. }
      destruct (Z.eqb_spec (r mod 2) 0) as [E|E]; cbn [negb].
      + cbn [rbind]. apply STEP; [exact I|]. intros ->. rewrite Z.bit0_odd, Zmod_odd in *. rewrite B in E. discriminate.
      + destruct (Z.eq_dec i 0) as [->|Ni].
        * rewrite Z.mul_1_r in M. unfold Rotate. rewrite (rotGen_panic pp (o fuel) crs None tmp k rk out id HN (O fuel) Hk I M). reflexivity.
        * destruct (Rotate pp (o fuel) crs tmp k rk out) as [out'|]; [|reflexivity]. cbn [rbind]. destruct (Copy (o fuel 9%nat) tmp out') as [tmp'|] eqn:EC; [|reflexivity]. cbn [rbind].
          apply STEP; [|exact Ni]. rewrite in_parties in *. rewrite (copy_keys _ _ _ _ EC). exact I.
  Qed.
  Lemma modN k : (2 <= N)%nat -> 0 <= k mod Z.of_nat (N / 2).
  Proof using. clear. intros HN. apply Z.mod_pos_bound. assert (N / 2 <> 0)%nat by (intros Z0; apply Nat.div_small_iff in Z0; lia). lia. Qed.

  (** *** conjugation *)
  Lemma conj_same pp (o : order) crs (c : ct) (ck ck' : conjset N) out : order_ok o -> (forall id, In id (parties c) -> mget seq_dec ck id = mget seq_dec ck' id) -> Conjugate pp o crs c ck out = Conjugate pp o crs c ck' out.
  Proof.
    intros O H. unfold Conjugate. apply rbind_ext. intros level _. apply rbind_ext. intros ids E. apply rbind_ext. intros lin _. destruct (lin <? level)%nat; [reflexivity|].
    apply rbind_ext. intros out1 _. f_equal. apply rfold_ext_in. intros b x Hx. unfold ks_get. rewrite (H x); [reflexivity|]. apply (ids_list (o 0%nat) (o 2%nat) c ids (O 0%nat) (O 2%nat) E). exact Hx.
  Qed.
  Lemma conj_panic pp (o : order) crs (c : ct) (ck : conjset N) out id : order_ok o -> In id (parties c) -> mget seq_dec ck id = None -> Conjugate pp o crs c ck out = Panic.
  Proof.
    intros O I M. unfold Conjugate. apply rbind_panic. intros level _. apply rbind_panic. intros ids E. apply rbind_panic. intros lin _. destruct (lin <? level)%nat; [reflexivity|].
    apply rbind_panic. intros out1 _. rewrite (rfold_panic _ (o 2%nat (keys ids)) id); [reflexivity|apply (ids_list (o 0%nat) (o 2%nat) c ids (O 0%nat) (O 2%nat) E); exact I|]. intros b. unfold ks_get. rewrite M. reflexivity.
  Qed.
End Uses.

Section UsesBfv.
  Context {N : nat}.
  Notation R := (R N). Notation ct := (ctT N).
  Notation order := IdSetModel.order.
  Lemma bGenVec_same b level s1 s2 h (op : ct) (rs rs' : brlkset N) l : (forall id, In id l -> mget seq_dec rs id = mget seq_dec rs' id) -> bGenVec b level s1 s2 h op rs l = bGenVec b level s1 s2 h op rs' l.
  Proof. intros H. unfold bGenVec. cbv zeta. f_equal. apply rfold_ext_in. intros a x Hx. apply rbind_ext. intros [d1 d2] _. unfold brlk_get. rewrite (H x Hx). reflexivity. Qed.
  Lemma bGenVec_panic b level s1 s2 h (op : ct) (rs : brlkset N) l id : In id l -> mget seq_dec rs id = None -> bGenVec b level s1 s2 h op rs l = Panic.
  Proof. intros I E. unfold bGenVec. cbv zeta. rewrite (rfold_panic _ l id I); [reflexivity|]. intros a. apply rbind_panic. intros [d1 d2] _. unfold brlk_get. rewrite E. reflexivity. Qed.
  Lemma bvStageH_same b level o crs (rs rs' : brlkset N) h0 (op0 : ct) ids0 y1 y2 out : (forall id, In id (o 8%nat (keys ids0)) -> mget seq_dec rs id = mget seq_dec rs' id) ->
    bvStageH b level o crs rs h0 op0 ids0 y1 y2 out = bvStageH b level o crs rs' h0 op0 ids0 y1 y2 out.
  Proof. intros H. unfold bvStageH. apply rbind_ext. intros u _. apply rfold_ext_in. intros a x Hx. unfold brlk_get. rewrite (H x Hx). reflexivity. Qed.
  Lemma lift_parties conv (o : list string -> list string) (c c' : ct) : ord1_ok o -> liftCt conv (o (keys c)) c = Ok c' -> forall x, In x (parties c') <-> In x (parties c).
  Proof.
    intros O E x. rewrite !in_parties. unfold liftCt in E.
    assert (G : forall l (a a' : ct), rfold (fun acc id => p <- cget c id ;; r <- conv (prows p) ;; Ok (cset acc id (Pol r false))) l a = Ok a' -> In x (keys a') <-> In x (keys a) \/ In x l).
    { induction l as [|y l IH]; intros a a' Ea; cbn [rfold] in Ea; [assert (a' = a) by congruence; subst; cbn [In]; tauto|]. destruct (cget c y) as [p|]; [|discriminate]. cbn [rbind] in Ea.
      destruct (conv (prows p)) as [r|]; [|discriminate]. cbn [rbind] in Ea. rewrite (IH _ _ Ea), keys_cset. cbn [In]. intuition congruence. }
    rewrite (G _ _ _ E). cbn [keys map In]. assert (P : In x (o (keys c)) <-> In x (keys c)) by (split; intros H; [apply (Permutation_in _ (O _))|apply (Permutation_in _ (Permutation_sym (O _)))]; exact H). rewrite P. tauto.
  Qed.
  Lemma bmulH_same b (o : order) crs (op0 op1 : ct) h0 h1 (rs rs' : brlkset N) out : order_ok o -> (forall id, In id (parties op0) \/ In id (parties op1) -> mget seq_dec rs id = mget seq_dec rs' id) ->
    MulAndRelinBFVHoisted b o crs op0 op1 h0 h1 rs out = MulAndRelinBFVHoisted b o crs op0 op1 h0 h1 rs' out.
  Proof.
    intros O H. unfold MulAndRelinBFVHoisted. apply rbind_ext. intros level _. apply rbind_ext. intros l0 _. destruct (l0 <? level)%nat; [reflexivity|].
    apply rbind_ext. intros ids0 E0. apply rbind_ext. intros ids1 E1.
    assert (K0 : forall n x, In x (o n (keys ids0)) <-> In x (parties op0)) by (intros n x; apply (ids_list (o 0%nat) (o n) op0 ids0); [intros l; apply O|intros l; apply O|exact E0]).
    assert (K1 : forall n x, In x (o n (keys ids1)) <-> In x (parties op1)) by (intros n x; apply (ids_list (o 1%nat) (o n) op1 ids1); [intros l; apply O|intros l; apply O|exact E1]).
    rewrite (bGenVec_same b level br_d1 br_d2 h0 op0 rs rs') by (intros id I; apply H; left; apply (K0 2%nat); exact I). apply rbind_ext. intros [x1 x2] _.
    rewrite (bGenVec_same b level br_b1 br_b2 h1 op1 rs rs') by (intros id I; apply H; right; apply (K1 3%nat); exact I). apply rbind_ext. intros [y1 y2] _.
    apply rbind_ext. intros out1 _. apply rbind_ext. intros out2 _. apply bvStageH_same. intros id I. apply H. left. apply (K0 8%nat). exact I.
  Qed.
  Lemma bmulH_panic b (o : order) crs (op0 op1 : ct) h0 h1 (rs : brlkset N) out id : order_ok o -> In id (parties op0) \/ In id (parties op1) -> mget seq_dec rs id = None ->
    MulAndRelinBFVHoisted b o crs op0 op1 h0 h1 rs out = Panic.
  Proof.
    intros O I M. unfold MulAndRelinBFVHoisted. apply rbind_panic. intros level _. apply rbind_panic. intros l0 _. destruct (l0 <? level)%nat; [reflexivity|].
    apply rbind_panic. intros ids0 E0. apply rbind_panic. intros ids1 E1.
    assert (K0 : forall n x, In x (o n (keys ids0)) <-> In x (parties op0)) by (intros n x; apply (ids_list (o 0%nat) (o n) op0 ids0); [intros l; apply O|intros l; apply O|exact E0]).
    assert (K1 : forall n x, In x (o n (keys ids1)) <-> In x (parties op1)) by (intros n x; apply (ids_list (o 1%nat) (o n) op1 ids1); [intros l; apply O|intros l; apply O|exact E1]).
    destruct I as [I|I].
    - rewrite (bGenVec_panic b level br_d1 br_d2 h0 op0 rs _ id) by (try (apply (K0 2%nat)); assumption). reflexivity.
    - apply rbind_panic. intros [x1 x2] _. rewrite (bGenVec_panic b level br_b1 br_b2 h1 op1 rs _ id) by (try (apply (K1 3%nat)); assumption). reflexivity.
  Qed.
End UsesBfv.

(** ** mkckks: MulRelinNew ([same]: both operands are one object) and MulRelinHoistedNew (with the digits of any earlier HoistedForm) *)
Theorem C73_mul : forall N pp (o : IdSetModel.order) crs ps (c0 c1 : ckct N) same h0 h1 (rs rs' : rlkset N), order_ok o ->
  (forall id, In id (parties (cv c0)) \/ In id (parties (cv c1)) -> mget seq_dec rs id = mget seq_dec rs' id) ->
  MulRelinNew pp o crs ps c0 c1 same rs = MulRelinNew pp o crs ps c0 c1 same rs' /\ MulRelinHoistedNew pp o crs ps c0 c1 h0 h1 rs = MulRelinHoistedNew pp o crs ps c0 c1 h0 h1 rs'.
Proof. intros. split; [apply mulNew_same; assumption|apply mulHNew_same; assumption]. Qed.
Print Assumptions C73_mul.
Theorem C73_mul_missing : forall N pp (o : IdSetModel.order) crs ps (c0 c1 : ckct N) same h0 h1 (rs : rlkset N) id, order_ok o ->
  In id (parties (cv c0)) \/ In id (parties (cv c1)) -> mget seq_dec rs id = None ->
  MulRelinNew pp o crs ps c0 c1 same rs = Panic /\ MulRelinHoistedNew pp o crs ps c0 c1 h0 h1 rs = Panic.
Proof. intros. split; [apply (mulNew_panic pp o crs ps c0 c1 same rs id); assumption|apply (mulHNew_panic pp o crs ps c0 c1 h0 h1 rs id); assumption]. Qed.
Print Assumptions C73_mul_missing.
(** mkbfv MulRelinNew *)
Theorem C73_bfv_mul : forall N b (o : IdSetModel.order) crs (c0 c1 : ctT N) (rs rs' : brlkset N), order_ok o ->
  (forall id, In id (parties c0) \/ In id (parties c1) -> mget seq_dec rs id = mget seq_dec rs' id) -> bMulRelinNew b o crs c0 c1 rs = bMulRelinNew b o crs c0 c1 rs'.
Proof.
  intros N b o crs c0 c1 rs rs' O H. unfold bMulRelinNew, bMulRelinHoisted. apply rbind_ext. intros out _. apply rbind_ext. intros c0R E0. apply rbind_ext. intros c1R E1.
  apply rbind_ext. intros ids0 _. apply rbind_ext. intros ids1 _. apply rbind_ext. intros l0 _. apply rbind_ext. intros h0 _. apply rbind_ext. intros l1 _. apply rbind_ext. intros h1 _.
  apply bmulH_same; [exact O|]. intros id I. apply H. rewrite (lift_parties _ (o 40%nat) c0 c0R (O 40%nat) E0), (lift_parties _ (o 41%nat) c1 c1R (O 41%nat) E1) in I. exact I.
Qed.
Print Assumptions C73_bfv_mul.
Theorem C73_bfv_mul_missing : forall N b (o : IdSetModel.order) crs (c0 c1 : ctT N) (rs : brlkset N) id, order_ok o ->
  In id (parties c0) \/ In id (parties c1) -> mget seq_dec rs id = None -> bMulRelinNew b o crs c0 c1 rs = Panic.
Proof.
  intros N b o crs c0 c1 rs id O I M. unfold bMulRelinNew, bMulRelinHoisted. apply rbind_panic. intros out _. apply rbind_panic. intros c0R E0. apply rbind_panic. intros c1R E1.
  apply rbind_panic. intros ids0 _. apply rbind_panic. intros ids1 _. apply rbind_panic. intros l0 _. apply rbind_panic. intros h0 _. apply rbind_panic. intros l1 _. apply rbind_panic. intros h1 _.
  apply (bmulH_panic b o crs c0R c1R _ _ rs out id); [exact O| |exact M]. rewrite (lift_parties _ (o 40%nat) c0 c0R (O 40%nat) E0), (lift_parties _ (o 41%nat) c1 c1R (O 41%nat) E1). exact I.
Qed.
Print Assumptions C73_bfv_mul_missing.

(** ** Rotations by any amount k, mkckks and mkbfv: only the keys [needs] lists *)
Theorem C73_rotate : forall N pp (o : nat -> IdSetModel.order) crs (c : ckct N) k h (rk rk' : rotset N), (2 <= N)%nat -> (forall n, order_ok (o n)) ->
  (forall id m, In id (parties (cv c)) -> needs crs (k mod Z.of_nat (N / 2)) m -> rk_of rk id m = rk_of rk' id m) ->
  RotateNew pp o crs c k rk = RotateNew pp o crs c k rk' /\ RotateHoistedNew pp o crs c k h rk = RotateHoistedNew pp o crs c k h rk' /\ bRotateNew pp o crs (cv c) k rk = bRotateNew pp o crs (cv c) k rk'.
Proof.
  intros N pp o crs c k h rk rk' HN O H. pose proof (modN (N := N) k HN) as Hr. set (r := k mod Z.of_nat (N / 2)) in *.
  assert (ONE : forall out (c' : ctT N) hh e, (forall x, In x (parties c') <-> In x (parties (cv c))) -> r <> 0 -> mget Z.eq_dec crs r = Some e -> RotateGen pp (o 0%nat) crs hh c' r rk out = RotateGen pp (o 0%nat) crs hh c' r rk' out).
  { intros out c' hh e PC R0 E. apply rotGen_same; [exact HN|apply O|exact Hr|]. intros id I. apply H; [apply PC; exact I|]. split; [exact R0|]. rewrite E. reflexivity. }
  assert (CH : forall out (c' : ctT N), (forall x, In x (parties c') <-> In x (parties (cv c))) -> r <> 0 -> mget Z.eq_dec crs r = None -> rotChain pp o crs (Z.to_nat r) 1 r rk c' out = rotChain pp o crs (Z.to_nat r) 1 r rk' c' out).
  { intros out c' PC R0 E. apply chain_same; [exact HN|exact O|lia|exact Hr|]. intros id i I Hi B. rewrite Z.mul_1_l. apply H; [apply PC; exact I|]. split; [exact R0|]. rewrite E. exists i. repeat split; assumption. }
  split; [|split].
  - unfold RotateNew, rotate. apply rbind_ext. intros ids _. apply rbind_ext. intros level _. rewrite rotNorm_ok by exact HN. fold r. cbn [rbind]. destruct (Z.eqb_spec r 0); [reflexivity|]. f_equal.
    destruct (mget Z.eq_dec crs r) as [e|] eqn:E; [unfold Rotate; apply (ONE _ _ _ e); [tauto|assumption|reflexivity]|]. apply rbind_ext. intros tmp Et. apply CH; [|assumption|reflexivity]. apply (copyNew_parties _ _ _ (O 0%nat 0%nat) Et).
  - unfold RotateHoistedNew, rotateHoisted. apply rbind_ext. intros ids _. apply rbind_ext. intros level _. rewrite rotNorm_ok by exact HN. fold r. cbn [rbind]. destruct (Z.eqb_spec r 0); [reflexivity|]. f_equal.
    destruct (mget Z.eq_dec crs r) as [e|] eqn:E; [unfold RotateHoisted; apply (ONE _ _ _ e); [tauto|assumption|reflexivity]|reflexivity].
  - unfold bRotateNew, bRotate. apply rbind_ext. intros ids _. rewrite rotNorm_ok by exact HN. fold r. cbn [rbind]. destruct (Z.eqb_spec r 0); [reflexivity|]. apply rbind_ext. intros tmp Et.
    destruct (mget Z.eq_dec crs r) as [e|] eqn:E; [unfold Rotate; apply (ONE _ _ _ e); [|assumption|reflexivity]|apply CH; [|assumption|reflexivity]]; apply (copyNew_parties _ _ _ (O 0%nat 0%nat) Et).
Qed.
Print Assumptions C73_rotate.
Theorem C73_rotate_missing : forall N pp (o : nat -> IdSetModel.order) crs (c : ckct N) k h (rk : rotset N) id m, (2 <= N)%nat -> (forall n, order_ok (o n)) ->
  In id (parties (cv c)) -> needs crs (k mod Z.of_nat (N / 2)) m -> rk_of rk id m = None ->
  RotateNew pp o crs c k rk = Panic /\ RotateHoistedNew pp o crs c k h rk = Panic /\ bRotateNew pp o crs (cv c) k rk = Panic.
Proof.
  intros N pp o crs c k h rk id m HN O I [R0 NM] M. pose proof (modN (N := N) k HN) as Hr. set (r := k mod Z.of_nat (N / 2)) in *.
  assert (CH : forall out (c' : ctT N), In id (parties c') -> mget Z.eq_dec crs r = None -> rotChain pp o crs (Z.to_nat r) 1 r rk c' out = Panic).
  { intros out c' I' E. rewrite E in NM. destruct NM as (i & Hi & B & ->). apply (chain_panic pp o crs rk id HN O (Z.to_nat r) 1 r c' out i); try assumption; try lia. rewrite Z.mul_1_l. exact M. }
  assert (ONE : forall out (c' : ctT N) hh e, In id (parties c') -> mget Z.eq_dec crs r = Some e -> RotateGen pp (o 0%nat) crs hh c' r rk out = Panic).
  { intros out c' hh e I' E. rewrite E in NM. subst m. apply (rotGen_panic pp (o 0%nat) crs hh c' r rk out id); try assumption; try apply O. }
  split; [|split].
  - unfold RotateNew, rotate. apply rbind_panic. intros ids _. apply rbind_panic. intros level _. rewrite rotNorm_ok by exact HN. fold r. cbn [rbind]. destruct (Z.eqb_spec r 0); [contradiction|].
    destruct (mget Z.eq_dec crs r) as [e|] eqn:E; [unfold Rotate; rewrite (ONE _ _ _ e); [reflexivity|exact I|reflexivity]|]. match goal with |- rbind ?x _ = Panic => assert (X : x = Panic); [|rewrite X; reflexivity] end.
    apply rbind_panic. intros tmp Et. apply CH; [|reflexivity]. apply (copyNew_parties _ _ _ (O 0%nat 0%nat) Et). exact I.
  - unfold RotateHoistedNew, rotateHoisted. apply rbind_panic. intros ids _. apply rbind_panic. intros level _. rewrite rotNorm_ok by exact HN. fold r. cbn [rbind]. destruct (Z.eqb_spec r 0); [contradiction|].
    destruct (mget Z.eq_dec crs r) as [e|] eqn:E; [unfold RotateHoisted; rewrite (ONE _ _ _ e); [reflexivity|exact I|reflexivity]|reflexivity].
  - unfold bRotateNew, bRotate. apply rbind_panic. intros ids _. rewrite rotNorm_ok by exact HN. fold r. cbn [rbind]. destruct (Z.eqb_spec r 0); [contradiction|]. apply rbind_panic. intros tmp Et.
    assert (I' : In id (parties tmp)) by (apply (copyNew_parties _ _ _ (O 0%nat 0%nat) Et); exact I).
    destruct (mget Z.eq_dec crs r) as [e|] eqn:E; [unfold Rotate; apply (ONE _ _ _ e); [exact I'|reflexivity]|apply CH; [exact I'|reflexivity]].
Qed.
Print Assumptions C73_rotate_missing.
(** ** Conjugation *)
Theorem C73_conjugate : forall N pp (o : IdSetModel.order) crs (c : ckct N) (ck ck' : conjset N), order_ok o -> (forall id, In id (parties (cv c)) -> mget seq_dec ck id = mget seq_dec ck' id) ->
  ConjugateNew pp o crs c ck = ConjugateNew pp o crs c ck' /\ bConjugateNew pp o crs (cv c) ck = bConjugateNew pp o crs (cv c) ck'.
Proof.
  intros N pp o crs c ck ck' O H. split.
  - unfold ConjugateNew. apply rbind_ext. intros ids _. apply rbind_ext. intros level _. rewrite (conj_same pp o crs (cv c) ck ck' _ O H). reflexivity.
  - unfold bConjugateNew. apply rbind_ext. intros ids _. apply rbind_ext. intros tmp Et. apply conj_same; [exact O|]. intros id I. apply H. apply (copyNew_parties _ _ _ (O 62%nat) Et). exact I.
Qed.
Print Assumptions C73_conjugate.
Theorem C73_conjugate_missing : forall N pp (o : IdSetModel.order) crs (c : ckct N) (ck : conjset N) id, order_ok o -> In id (parties (cv c)) -> mget seq_dec ck id = None ->
  ConjugateNew pp o crs c ck = Panic /\ bConjugateNew pp o crs (cv c) ck = Panic.
Proof.
  intros N pp o crs c ck id O I M. split.
  - unfold ConjugateNew. apply rbind_panic. intros ids _. apply rbind_panic. intros level _. rewrite (conj_panic pp o crs (cv c) ck _ id O I M). reflexivity.
  - unfold bConjugateNew. apply rbind_panic. intros ids _. apply rbind_panic. intros tmp Et. apply (conj_panic pp o crs tmp ck _ id O); [|exact M]. apply (copyNew_parties _ _ _ (O 62%nat) Et). exact I.
Qed.
Print Assumptions C73_conjugate_missing.

(** ** The hypotheses can be met: N = 8 (rotations modulo 4), alice and bob in the ciphertexts, the default CRS (entries for 1 and 2, none for 3) *)
Lemma ex_needs m : needs ex_crs ((-1) mod Z.of_nat (8 / 2)) m <-> m = 1 \/ m = 2.
Proof.
  change ((-1) mod Z.of_nat (8 / 2)) with 3. unfold needs. assert (E : mget Z.eq_dec ex_crs 3 = None) by (vm_compute; reflexivity). rewrite E. split.
  - intros (_ & i & Hi & B & ->). destruct (Z.eq_dec i 0) as [->|N0]; [left; reflexivity|]. destruct (Z.eq_dec i 1) as [->|N1]; [right; reflexivity|].
    exfalso. rewrite (Z.bits_above_log2 3 i) in B; [discriminate|lia|]. change (Z.log2 3) with 1. lia.
  - intros [->| ->]; (split; [lia|]); [exists 0|exists 1]; repeat split; lia.
Qed.
(** a CRS with an entry for 3: then only the key for 3 is asked for, and the keys for 1 and 2 do not help *)
Lemma ex_needs3 e m : needs ((3, e) :: ex_crs) ((-1) mod Z.of_nat (8 / 2)) m <-> m = 3.
Proof. change ((-1) mod Z.of_nat (8 / 2)) with 3. unfold needs. cbn [mget]. destruct (Z.eq_dec 3 3); [|congruence]. split; [intros [_ H]; exact H|intros ->; split; [lia|reflexivity]]. Qed.
Definition exu_rs : rlkset 8 := map (fun id => (id, ex_rlk id)) ["bob"; "alice"]%string.
Definition exu_rk : rotset 8 := map (fun id => (id, [(1, ex_rtk1 1 id); (2, ex_rtk1 2 id)])) ["bob"; "alice"]%string.
Lemma exu_has id m : In id ["alice"; "bob"]%string -> m = 1 \/ m = 2 -> has_rot_key ex_pp ex_crs exu_rk m 3 1 id ex_s.
Proof.
  intros Hid HM. assert (SM : forall k, is_sample ex_pp 3 (ex_e k) (ex_smp k)) by (intros k; apply ex_e_sample).
  assert (I : In m [0; -1; -2; 1; 2] /\ 0 <= m) by (cbn; lia). destruct I as [I Ip].
  exists (ex_sk id), ex_smp, ex_e, (ex_rtk1 m id). split; [apply ex_sk_val|]. split; [apply bnd_poly; [lia|reflexivity]|]. split; [intros k _; apply SM|]. split.
  - destruct (GenRotationKey_ok ex_pp ex_wf 3 ex_e ex_smp ex_crs m _ m (crs_entry ex_pp (ex_u m)) (ex_sk id) ex_s ex_small (fun k _ => SM k) (ex_sk_val id) (proj1 (ex_crs_get m I))) as (key & X & _).
    + destruct (Z.ltb_spec m 0); [lia|reflexivity].
    + exact (proj1 (ex_crs_get m I)).
    + exact (proj2 (ex_crs_get m I)).
    + unfold ex_rtk1. rewrite X. reflexivity.
  - destruct Hid as [<-|[<-|[]]]; destruct HM as [->| ->]; reflexivity.
Qed.
(** a product with and without a key of carol, and without one of bob; a rotation by -1 with a useless key for 3, and without keys of bob;
    with a CRS that has an entry for 3 the keys for 1 and 2 are not enough; a conjugation without a key of bob *)
Theorem C73_nonvacuous : exists (c0 c1 c : ckct 8), let ps := f_of_int 200 in let o := fun _ : nat => ex_ord in
  parties (cv c0) = ["alice"]%string /\ parties (cv c1) = ["alice"; "bob"]%string /\ parties (cv c) = ["alice"; "bob"]%string /\
  (exists v, MulRelinNew ex_pp ex_ord ex_crs ps c0 c1 false exu_rs = Ok v /\ MulRelinNew ex_pp ex_ord ex_crs ps c0 c1 false (("carol"%string, RLK "carol" nil nil nil) :: exu_rs) = Ok v) /\
  MulRelinNew ex_pp ex_ord ex_crs ps c0 c1 false [("alice"%string, ex_rlk "alice")] = Panic /\
  (exists v, RotateNew ex_pp o ex_crs c (-1) exu_rk = Ok v /\ RotateNew ex_pp o ex_crs c (-1) (map (fun e => (fst e, (3, RTK "" 3 nil) :: snd e)) exu_rk) = Ok v) /\
  RotateNew ex_pp o ex_crs c (-1) [("alice"%string, [(1, ex_rtk1 1 "alice"); (2, ex_rtk1 2 "alice")])] = Panic /\
  (forall e, RotateNew ex_pp o ((3, e) :: ex_crs) c (-1) exu_rk = Panic) /\
  (forall k, ConjugateNew ex_pp ex_ord ex_crs c [("alice"%string, k)] = Panic).
Proof.
  destruct C20_nonvacuous as (op0 & op1 & out & W0 & W1 & _ & P0 & P1 & _ & K & _). cbv zeta in K.
  exists (CK op0 (f_of_int 256)), (CK op1 (f_of_int 256)), (CK op1 f_one). cbv zeta. cbn [cv]. split; [exact P0|]. split; [exact P1|]. split; [exact P1|].
  assert (I0 : In 0 [0; -1; -2; 1; 2]) by (cbn; tauto). assert (I1 : In (-1) [0; -1; -2; 1; 2]) by (cbn; tauto).
  assert (O : forall n : nat, order_ok ((fun _ : nat => ex_ord) n)) by (intros; apply ex_ord_ok).
  assert (BO : In "bob"%string (parties op1)) by (rewrite P1; right; left; reflexivity).
  assert (Q3 : length (Qm ex_pp) = 3%nat) by reflexivity.
  split; [|split; [|split; [|split; [|split]]]].
  - destruct (C44_mul_relin_new 8 ex_pp ex_ord ex_crs (f_of_int 200) (CK op0 (f_of_int 256)) (CK op1 (f_of_int 256)) false exu_rs (fun _ => ex_s) (fun _ => ex_s) _ _ 3 1 2 2 1 ex_wf ex_ord_ok ex_small
      ltac:(discriminate) ltac:(rewrite Q3; lia) ltac:(rewrite Q3; lia) W0 W1 (proj1 (ex_crs_get 0 I0)) (proj1 (ex_crs_get (-1) I1)) (proj2 (ex_crs_get 0 I0)) (proj2 (ex_crs_get (-1) I1)) K) as (v & E & _).
    + vm_compute. reflexivity.
    + vm_compute. reflexivity.
    + split; [cbn; lia|]. split; [|vm_compute; reflexivity]. intros i Hi. destruct i; [vm_compute; reflexivity|lia].
    + eexists. split; [exact E|]. rewrite <- E. symmetry. apply C73_mul; [exact None|exact None|exact ex_ord_ok|]. cbn [cv]. rewrite P0, P1. intros id [[<-|[]]|[<-|[<-|[]]]]; reflexivity.
  - exact (proj1 (C73_mul_missing 8 ex_pp ex_ord ex_crs (f_of_int 200) (CK op0 (f_of_int 256)) (CK op1 (f_of_int 256)) false None None [("alice"%string, ex_rlk "alice")] "bob"%string ex_ord_ok (or_intror BO) eq_refl)).
  - destruct (C23_rotate_new 8 ex_pp (fun _ => ex_ord) ex_crs (CK op1 f_one) (-1) exu_rk (fun _ => ex_s) 3 1 2 ex_wf O ex_small ltac:(rewrite Q3; lia) W1) as (v & EE & R & _).
    + intros i _ U. assert (J : needs ex_crs (-1 mod Z.of_nat (8 / 2)) i) by (split; [discriminate|]; destruct U as [[A ->]|(A & t & T1 & T2 & ->)]; [destruct (mget Z.eq_dec ex_crs _); [reflexivity|congruence]|rewrite A; exists t; repeat split; assumption]).
      apply ex_needs in J. assert (I : In i [0; -1; -2; 1; 2]) by (cbn; lia). eexists. split; [exact (proj1 (ex_crs_get i I))|exact (proj2 (ex_crs_get i I))].
    + intros i id _ U Hid. assert (J : needs ex_crs (-1 mod Z.of_nat (8 / 2)) i) by (split; [discriminate|]; destruct U as [[A ->]|(A & t & T1 & T2 & ->)]; [destruct (mget Z.eq_dec ex_crs _); [reflexivity|congruence]|rewrite A; exists t; repeat split; assumption]).
      apply ex_needs in J. cbn [cv] in Hid. rewrite P1 in Hid. apply exu_has; assumption.
    + exists (CK v (csc (CK op1 f_one))). split; [exact R|].
      destruct (C73_rotate 8 ex_pp (fun _ => ex_ord) ex_crs (CK op1 f_one) (-1) nil exu_rk (map (fun e => (fst e, (3, RTK "" 3 nil) :: snd e)) exu_rk)) as [EQ _].
      * lia.
      * exact O.
      * cbn [cv]. rewrite P1. intros id m Hid J. apply ex_needs in J. destruct Hid as [<-|[<-|[]]]; destruct J as [->| ->]; reflexivity.
      * rewrite <- EQ. exact R.
  - refine (proj1 (C73_rotate_missing 8 ex_pp (fun _ => ex_ord) ex_crs (CK op1 f_one) (-1) nil [("alice"%string, [(1, ex_rtk1 1 "alice"); (2, ex_rtk1 2 "alice")])] "bob"%string 2 _ O BO _ _)); [lia|apply ex_needs; right; reflexivity|reflexivity].
  - intros e. refine (proj1 (C73_rotate_missing 8 ex_pp (fun _ => ex_ord) ((3, e) :: ex_crs) (CK op1 f_one) (-1) nil exu_rk "bob"%string 3 _ O BO _ _)); [lia|apply ex_needs3; reflexivity|reflexivity].
  - intros k. exact (proj1 (C73_conjugate_missing 8 ex_pp ex_ord ex_crs (CK op1 f_one) [("alice"%string, k)] "bob"%string ex_ord_ok BO eq_refl)).
Qed.
Print Assumptions C73_nonvacuous.
