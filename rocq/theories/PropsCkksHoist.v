(** C57: hoisting never changes a result.  A client program that hoists (HoistedForm, MulRelinHoistedNew, RotateHoistedNew, CopyNew) returns the very ciphertexts
    of the same program without hoisting ([xerase], CkksHoist.v), so everything known about those (C48, C52) holds for it. *)
From Flocq Require Import Core BinarySingleNaN.
From Coq Require Import Znumtheory Setoid Morphisms Reals Lra.
From Verif Require Import Base IdSetModel IdSetSpec IdSetProofs KeySetModel NumTheory Negacyclic Ntt Word BasisExt BasisExtProofs DecompProofs BasisSpec Rows RlweModel KeyGenModel SchemeSpec ExtProd ExtProps Galois KeyGenProofs Instance CtModel CtSpec CtProofs EncDecProofs EncMsgModel HeapModel HeapProofs PropsEnc KeySwitchModel Digits KsLoops RotProofs ConjProofs MulProofs PropsKeySwitch PropsRotate FloatModel CkksFloat CkksModel FloatProofs CkksFloatProofs CkksProofs CkksRescale PropsCkks PropsRescale PropsMulRelin BfvCross EncFresh Slots PropsSlots CkksSlots SlotNorm CkksCircuit PropsCkksCircuit CkksBudget CkksHoist.
Open Scope Z_scope.

Lemma mset_same {V} (m : gomap string V) k v : mget seq_dec m k = Some v -> mset seq_dec m k v = m.
Proof.
  induction m as [|[k' v'] m IH]; cbn; [discriminate|]. destruct (seq_dec k k') as [->|NE]; [intros E; injection E as ->; reflexivity|]. intros E. rewrite IH by exact E. reflexivity.
Qed.

Section Calls.
  Context {N : nat} (pp : rparams) (WF : wfp N pp).
  Notation ct := (ckct N).

  (** HoistedForm holds the digits of every party *)
  Lemma form_ok (o : IdSetModel.order) (c : ct) level : order_ok o -> (level < length (Qm pp))%nat -> wfct pp level false (cv c) ->
    exists h, HoistedForm pp o c = Ok h /\ hoisted_at pp level (cv c) (Some h).
  Proof using WF.
    intros O HL W. unfold HoistedForm. destruct (IDSetOf_ok (o 50%nat) (cv c)) as (is & A & _ & X); [intros l; apply O|]. rewrite A. cbn [rbind]. rewrite (wfct_level pp _ _ _ W). cbn [rbind].
    assert (KI : forall x, In x (keys is) <-> In x (parties (cv c))).
    { intros x. rewrite in_parties, <- X. unfold is_has. rewrite mhas_In. reflexivity. }
    assert (G : forall l h0, (forall x, In x l -> In x (parties (cv c))) ->
      exists h, rfold (fun h id => p <- cgetL (cv c) id level ;; d <- Decompose pp level p ;; Ok (mset seq_dec h id d)) l h0 = Ok h /\
        forall id, In id l \/ (exists ds, Decompose pp level (comp (cv c) id) = Ok ds /\ mget seq_dec h0 id = Some ds) -> exists ds, Decompose pp level (comp (cv c) id) = Ok ds /\ mget seq_dec h id = Some ds).
    { induction l as [|x l IH]; intros h0 Hl; cbn [rfold]; [exists h0; split; [reflexivity|]; intros id [[]|H]; exact H|].
      assert (Px : In x (parties (cv c))) by (apply Hl; left; reflexivity). apply in_parties in Px as Px'. destruct Px' as [_ Kx].
      destruct (wfct_comp pp _ _ _ _ W Kx) as (L & _). rewrite cgetL_comp by (trivial; lia). cbn [rbind].
      destruct (decompose_some pp level (cv c) x WF HL W Kx) as [ds Eds]. rewrite Eds. cbn [rbind].
      destruct (IH (mset seq_dec h0 x ds)) as (h & H1 & H2); [intros y Hy; apply Hl; right; exact Hy|]. exists h. split; [exact H1|]. intros id Hid. apply H2.
      destruct (string_dec x id) as [->|n].
      - right. exists ds. split; [exact Eds|]. rewrite mget_mset. destruct (seq_dec id id); congruence.
      - destruct Hid as [[Hid|Hid]|(ds' & D1 & D2)]; [contradiction|left; exact Hid|right]. exists ds'. split; [exact D1|]. rewrite mget_mset. destruct (seq_dec id x); [congruence|exact D2]. }
    destruct (G (o 51%nat (keys is)) nil) as (h & H1 & H2).
    { intros x Hx. apply KI. apply (Permutation_in _ (O 51%nat (keys is))). exact Hx. }
    exists h. split; [exact H1|]. intros id Hid. apply H2. left. apply (Permutation_in _ (Permutation_sym (O 51%nat (keys is)))). apply KI. exact Hid.
  Qed.

  (** the hoisted product depends on the hoisted operands only through the digits of the operands' parties *)
  Definition same_hoist (h h' : hoisted N) (op : ctT N) : Prop := forall id, In id (parties op) -> hget h id = hget h' id.
  Lemma hoisted_same level (op : ctT N) h h' : hoisted_at pp level op (Some h) -> hoisted_at pp level op (Some h') -> same_hoist h h' op.
  Proof using. intros A B id Hid. destruct (A id Hid) as (d & D1 & D2). destruct (B id Hid) as (e & E1 & E2). unfold hget. rewrite D2, E2. congruence. Qed.
  Lemma MulHoisted_ext (o : IdSetModel.order) crs (op0 op1 : ctT N) h0 h0' h1 h1' rs out : order_ok o -> same_hoist h0 h0' op0 -> same_hoist h1 h1' op1 ->
    MulAndRelinHoisted pp o crs op0 op1 (Some h0) (Some h1) rs out = MulAndRelinHoisted pp o crs op0 op1 (Some h0') (Some h1') rs out.
  Proof using.
    intros O S0 S1. unfold MulAndRelinHoisted. destruct (ctLevel out) as [level|]; cbn [rbind]; [|reflexivity].
    destruct (ctLevel op0) as [l0|]; cbn [rbind]; [|reflexivity]. destruct (l0 <? level)%nat; [reflexivity|].
    destruct (IDSetOf_ok (o 0%nat) op0) as (ids0 & I1 & _ & I3); [intros l; apply O|]. rewrite I1. cbn [rbind].
    destruct (IDSetOf_ok (o 1%nat) op1) as (ids1 & J1 & _ & J3); [intros l; apply O|]. rewrite J1. cbn [rbind].
    assert (IL0 : forall n x, In x (o n (keys ids0)) -> In x (parties op0)).
    { intros n x Hx. apply (Permutation_in _ (O n (keys ids0))) in Hx. apply in_parties. apply I3. unfold is_has. apply mhas_In. assumption. }
    assert (IL1 : forall n x, In x (o n (keys ids1)) -> In x (parties op1)).
    { intros n x Hx. apply (Permutation_in _ (O n (keys ids1))) in Hx. apply in_parties. apply J3. unfold is_has. apply mhas_In. assumption. }
    assert (E0 : genVec pp level rlk_d (Some h0) op0 rs (o 2%nat (keys ids0)) = genVec pp level rlk_d (Some h0') op0 rs (o 2%nat (keys ids0))).
    { unfold genVec. rewrite (rfold_ext _ (fun acc id => ds <- hdig pp level (Some h0') op0 id ;; k <- rlk_get rs id ;; macAdd pp level (rlk_d k) ds acc)); [reflexivity|].
      intros b x Hx. unfold hdig. rewrite S0 by (apply (IL0 _ _ Hx)). reflexivity. }
    assert (E1 : genVec pp level rlk_b (Some h1) op1 rs (o 3%nat (keys ids1)) = genVec pp level rlk_b (Some h1') op1 rs (o 3%nat (keys ids1))).
    { unfold genVec. rewrite (rfold_ext _ (fun acc id => ds <- hdig pp level (Some h1') op1 id ;; k <- rlk_get rs id ;; macAdd pp level (rlk_b k) ds acc)); [reflexivity|].
      intros b x Hx. unfold hdig. rewrite S1 by (apply (IL1 _ _ Hx)). reflexivity. }
    rewrite E0, E1. destruct (genVec pp level rlk_d (Some h0') op0 rs _) as [x|]; cbn [rbind]; [|reflexivity]. destruct (genVec pp level rlk_b (Some h1') op1 rs _) as [y|]; cbn [rbind]; [|reflexivity].
    destruct (prodStage pp level o op0 op1 ids0 ids1 out) as [out1|]; cbn [rbind]; [|reflexivity].
    assert (E2 : xStage pp level o (Some h1) op1 ids1 x out1 = xStage pp level o (Some h1') op1 ids1 x out1).
    { unfold xStage. apply rfold_ext. intros c id Hid. apply IL1 in Hid. unfold ExtOp. rewrite S1 by exact Hid. reflexivity. }
    rewrite E2. destruct (xStage pp level o (Some h1') op1 ids1 x out1) as [out2|]; cbn [rbind]; [|reflexivity].
    unfold vStageH. apply rfold_ext. intros c id Hid. apply IL0 in Hid. unfold ExtOp. rewrite S0 by exact Hid. reflexivity.
  Qed.
  Lemma HoistedNew_ext (o : IdSetModel.order) crs pscale (c0 c1 : ct) h0 h0' h1 h1' rs : order_ok o -> same_hoist h0 h0' (cv c0) -> same_hoist h1 h1' (cv c1) ->
    MulRelinHoistedNew pp o crs pscale c0 c1 (Some h0) (Some h1) rs = MulRelinHoistedNew pp o crs pscale c0 c1 (Some h0') (Some h1') rs.
  Proof using.
    intros O S0 S1. unfold MulRelinHoistedNew. destruct (newCiphertextBinary o c0 c1) as [out|]; cbn [rbind]; [|reflexivity]. unfold mulRelinHoisted.
    destruct (ctLevel (cv c0)) as [l0|]; cbn [rbind]; [|reflexivity]. destruct (ctLevel (cv c1)) as [l1|]; cbn [rbind]; [|reflexivity].
    destruct (ctLevel (cv (CK (cv out) f_zero))) as [lo|]; cbn [rbind]; [|reflexivity]. destruct (if (_ <? _)%nat then _ else _) as [out'|]; cbn [rbind]; [|reflexivity].
    rewrite (MulHoisted_ext o crs (cv c0) (cv c1) h0 h0' h1 h1' rs (cv out')) by assumption. reflexivity.
  Qed.
  Lemma hoisted_mul (o : IdSetModel.order) crs pscale (c0 c1 : ct) (same : bool) h0 h1 rs l0 l1 : order_ok o -> (l0 < length (Qm pp))%nat -> (l1 < length (Qm pp))%nat ->
    wfct pp l0 false (cv c0) -> wfct pp l1 false (cv c1) -> (same = true -> c0 = c1) ->
    (forall id, In id (parties (cv c0)) \/ In id (parties (cv c1)) -> exists k, rlk_get rs id = Ok k) ->
    hoisted_at pp l0 (cv c0) (Some h0) -> hoisted_at pp l1 (cv c1) (Some h1) ->
    MulRelinHoistedNew pp o crs pscale c0 c1 (Some h0) (Some h1) rs = MulRelinNew pp o crs pscale c0 c1 same rs.
  Proof using WF.
    intros O L0 L1 W0 W1 SM HK H0 H1. unfold MulRelinNew.
    destruct (IDSetOf_ok (o 60%nat) (cv c0)) as (ids0 & I1 & _ & I3); [intros l; apply O|]. rewrite I1. cbn [rbind].
    assert (K0 : forall x, In x (keys ids0) <-> x <> id0 /\ In x (keys (cv c0))) by (intros x; rewrite <- I3; unfold is_has; rewrite mhas_In; reflexivity).
    destruct (hoistInto_ok pp (o 61%nat) rs c0 ids0 l0 WF (fun l => O 61%nat l) L0 W0 K0) as (g0 & G1 & G2); [intros id Hid; apply HK; left; exact Hid|].
    assert (S0 := hoisted_same l0 (cv c0) h0 g0 H0 G2).
    destruct same.
    - specialize (SM eq_refl). subst c1. rewrite G1. cbn [rbind]. apply HoistedNew_ext; trivial.
      assert (EL : l1 = l0) by (pose proof (wfct_level pp _ _ _ W0) as A; pose proof (wfct_level pp _ _ _ W1) as B; congruence). subst l1. apply (hoisted_same l0); assumption.
    - destruct (IDSetOf_ok (o 62%nat) (cv c1)) as (ids1 & J1 & _ & J3); [intros l; apply O|]. rewrite J1. cbn [rbind]. rewrite G1. cbn [rbind].
      assert (K1 : forall x, In x (keys ids1) <-> x <> id0 /\ In x (keys (cv c1))) by (intros x; rewrite <- J3; unfold is_has; rewrite mhas_In; reflexivity).
      destruct (hoistInto_ok pp (o 63%nat) rs c1 ids1 l1 WF (fun l => O 63%nat l) L1 W1 K1) as (g1 & E1 & E2); [intros id Hid; apply HK; right; exact Hid|].
      rewrite E1. cbn [rbind]. apply HoistedNew_ext; trivial. apply (hoisted_same l1); assumption.
  Qed.

  (** dropping no level is copying *)
  Lemma copy_drop0 (o : IdSetModel.order) (c : ct) level : order_ok o -> wfct pp level false (cv c) -> DropLevelNew pp o c 0 = ckCopyNew (o 0%nat) c.
  Proof using.
    intros O W. unfold DropLevelNew, ckCopyNew. destruct (CopyNew_ok (o 0%nat) (cv c)) as (v & C1 & C2 & C3); [intros l; apply O|apply W|apply W|].
    rewrite C1. cbn [rbind]. assert (WV : wfct pp level false v) by (apply (wfct_ext pp level false (cv c)); assumption).
    unfold DropLevel. cbn [cv csc]. rewrite (wfct_level pp _ _ _ WV). cbn [rbind]. destruct (Nat.ltb_spec (S level) 0) as [X|_]; [inversion X|]. rewrite Nat.sub_0_r.
    assert (G : forall l, incl l (keys v) -> rfold (fun (c : ctT N) id => p <- cget c id ;; p <- cutRows pp (S level) p ;; Ok (cset c id p)) l v = Ok v).
    { induction l as [|x l IH]; intros I; cbn [rfold]; [reflexivity|]. assert (Kx : In x (keys v)) by (apply I; left; reflexivity).
      rewrite cget_comp by exact Kx. cbn [rbind]. destruct (wfct_comp pp _ _ _ _ WV Kx) as (LE & _). unfold cutRows. destruct (Nat.ltb_spec (length (prows (comp v x))) (S level)); [lia|]. cbn [rbind].
      rewrite firstn_all2 by lia. assert (EP : Pol (prows (comp v x)) (pntt (comp v x)) = comp v x) by (destruct (comp v x); reflexivity). rewrite EP. unfold cset. rewrite mset_same; [apply IH; intros y Hy; apply I; right; exact Hy|].
      apply mget_comp. exact Kx. }
    rewrite G; [reflexivity|]. intros x Hx. apply (Permutation_in _ (O 1%nat (keys v))). exact Hx.
  Qed.
End Calls.

Lemma krun_ext {N} pp pscale crs (rs : rlkset N) (rk : rotset N) (ck : conjset N) pts (w w' : nat -> nat -> IdSetModel.order) : forall prog n st cs, (forall k, (n <= k)%nat -> w k = w' k) ->
  krun pp pscale crs rs rk ck pts w n prog st cs = krun pp pscale crs rs rk ck pts w' n prog st cs.
Proof.
  induction prog as [|i prog IH]; intros n st cs H; cbn [krun]; [reflexivity|]. rewrite (H n (le_n n)). destruct (kcall _ _ _ _ _ _ _ _ _ _ _) as [[st1 c]|]; cbn [rbind]; [|reflexivity].
  apply IH. intros k Hk. apply H. lia.
Qed.
(** the hoisting registers: h was made from register i *)
Definition forms {N} pp (regs : list (ckct N)) (src : list nat) (hs : list (hoisted N)) : Prop := length src = length hs /\
  forall a i h, nth_error src a = Some i -> nth_error hs a = Some h -> exists c l, nth_error regs i = Some c /\ (l < length (Qm pp))%nat /\ wfct pp l false (cv c) /\ hoisted_at pp l (cv c) (Some h).
Lemma forms_more {N} pp (regs : list (ckct N)) src hs c : forms pp regs src hs -> forms pp (regs ++ [c]) src hs.
Proof.
  intros [L H]. split; [exact L|]. intros a i h A B. destruct (H a i h A B) as (x & l & E & R). exists x, l. split; [|exact R]. rewrite nth_error_app1; [exact E|]. apply nth_error_Some. congruence.
Qed.
Lemma forms_get {N} pp (regs : list (ckct N)) src hs a i : forms pp regs src hs -> nth_error src a = Some i ->
  exists h c l, BasisExt.idx hs a = Ok h /\ nth_error regs i = Some c /\ BasisExt.idx regs i = Ok c /\ (l < length (Qm pp))%nat /\ wfct pp l false (cv c) /\ hoisted_at pp l (cv c) (Some h).
Proof.
  intros [L H] A. destruct (nth_error hs a) as [h|] eqn:E.
  - destruct (H a i h A E) as (c & l & R1 & R2). exists h, c, l. unfold BasisExt.idx. rewrite E, R1. split; [reflexivity|]. split; [reflexivity|]. split; [reflexivity|exact R2].
  - apply nth_error_None in E. assert (a < length src)%nat by (apply nth_error_Some; congruence). lia.
Qed.

(** ** C57 *)
Theorem C57_hoisting : forall N pp pscale crs (rs : rlkset N) (rk : rotset N) (ck : conjset N) (s r : string -> R N) B T (pids : list string) (w : nat -> nat -> IdSetModel.order)
  (pts : list (poly N * f64)) (pis : list kpinfo) (zpts : list slots) prog n m st (cs : list (ckct N)) src hs ts zs ts',
  wfp N pp -> fpos pscale -> small_ok pp B -> (forall n m, order_ok (w n m)) -> pool_ok pp st ->
  Forall (kready pp crs rs rk ck s r B T pids) (xerase prog) -> ksteps N pp pscale crs B T pis ts (xerase prog) ts' ->
  length ts = length cs -> length zs = length cs -> (forall a c t, nth_error cs a = Some c -> nth_error ts a = Some t -> kreg pp s pids c t (nth a zs zslots)) ->
  (forall p q, nth_error pis p = Some q -> exists x, nth_error pts p = Some x /\ kplainreg pp x q (nth p zpts zslots)) ->
  forms pp cs src hs -> xwell crs (length cs) src prog ->
  exists w' st' cs' hs', (forall n m, order_ok (w' n m)) /\ xrun pp pscale crs rs rk ck pts w n prog (st, cs, hs) = Ok (st', cs', hs') /\
    krun pp pscale crs rs rk ck pts w' m (xerase prog) st cs = Ok (st', cs').
Proof.
  intros N pp pscale crs rs rk ck s r B T pids w pts pis zpts prog. induction prog as [|i prog IH]; intros n m st cs src hs ts zs ts' WF PS SM O PO F ST L1 L2 H HP FO XW.
  { exists w, st, cs, hs. split; [exact O|]. split; reflexivity. }
  assert (REG : forall a c, nth_error cs a = Some c -> exists t, nth_error ts a = Some t /\ kreg pp s pids c t (nth a zs zslots)).
  { intros a c E. destruct (nth_error ts a) as [t|] eqn:ET; [exists t; split; [reflexivity|apply H; assumption]|]. apply nth_error_None in ET. assert (a < length cs)%nat by (apply nth_error_Some; congruence). lia. }
  (* one instruction that erases to one call *)
  assert (STEP : forall k, xerase1 i = [k] -> xwell crs (S (length cs)) src prog ->
     (forall st1 c, kcall pp pscale crs rs rk ck pts (w n) st cs k = Ok (st1, c) -> xcall pp pscale crs rs rk ck pts (w n) (st, cs, hs) i = Ok (st1, cs ++ [c], hs)) ->
     exists w' st' cs' hs', (forall n m, order_ok (w' n m)) /\ xrun pp pscale crs rs rk ck pts w n (i :: prog) (st, cs, hs) = Ok (st', cs', hs') /\
       krun pp pscale crs rs rk ck pts w' m (xerase (i :: prog)) st cs = Ok (st', cs')).
  { intros k EK XW' HX. change (xerase (i :: prog)) with (xerase1 i ++ xerase prog) in *. rewrite EK in *. cbn [app] in *.
    inversion ST as [|? ? t ? ? S1 S2]; subst. inversion F as [|? ? F1 F2]; subst.
    destruct (kcall_ok pp WF pscale PS crs rs rk ck s r B T SM pids (w n) st pts pis zpts k cs ts zs t (O n) PO F1 S1 L1 H HP) as (st1 & c & C1 & C2 & C3).
    destruct (IH (S n) (S m) st1 (cs ++ [c]) src hs (ts ++ [t]) (zs ++ [kplain N zpts k zs]) ts') as (w' & st' & cs' & hs' & O' & X1 & X2); trivial.
    - rewrite !app_length. cbn. lia.
    - rewrite !app_length. cbn. lia.
    - intros a c' t'. rewrite !nth_error_snoc, L1. destruct (Nat.eqb_spec a (length cs)) as [->|NE].
      + intros E1 E2. injection E1 as <-. injection E2 as <-. rewrite app_nth2 by lia. rewrite L2, Nat.sub_diag. exact C3.
      + intros E1 E2. assert (a < length cs)%nat by (apply nth_error_Some; congruence). rewrite app_nth1 by lia. apply H; assumption.
    - apply forms_more. exact FO.
    - rewrite app_length. cbn [length]. rewrite Nat.add_1_r. exact XW'.
    - exists (fun q => if (q =? m)%nat then w n else w' q), st', cs', hs'. split; [|split].
      + intros q p. destruct (q =? m)%nat; [apply O|apply O'].
      + cbn [xrun]. rewrite (HX _ _ C1). cbn [rbind]. exact X1.
      + cbn [krun]. rewrite Nat.eqb_refl, C1. cbn [rbind]. rewrite <- X2. apply krun_ext. intros q Hq. destruct (Nat.eqb_spec q m); [lia|reflexivity]. }
  destruct i as [k|i|i j a b|i k a|i]; cbn [xwell] in XW.
  - apply (STEP k); [reflexivity|exact XW|]. intros st1 c C. cbn [xcall]. rewrite C. reflexivity.
  - (* HoistedForm *)
    destruct XW as [HI XW]. destruct (nth_error cs i) as [c|] eqn:EC; [|apply nth_error_None in EC; lia]. destruct (REG i c EC) as (t & ET & W & HL & _).
    destruct (form_ok pp WF (w n 0%nat) c (klev t) (O n 0%nat) HL W) as (h & A1 & A2).
    destruct (IH (S n) m st cs (src ++ [i]) (hs ++ [h]) ts zs ts') as (w' & st' & cs' & hs' & O' & X1 & X2); trivial.
    + destruct FO as [FL FF]. split; [rewrite !app_length; cbn; lia|]. intros q i' h'. rewrite !nth_error_snoc, FL. destruct (Nat.eqb_spec q (length hs)) as [->|NE]; [|apply FF].
      intros E1 E2. injection E1 as <-. injection E2 as <-. exists c, (klev t). split; [exact EC|]. split; [exact HL|]. split; assumption.
    + exists w', st', cs', hs'. split; [exact O'|]. split; [|exact X2]. cbn [xrun xcall]. unfold BasisExt.idx at 1. rewrite EC. cbn [rbind]. rewrite A1. cbn [rbind]. exact X1.
  - (* MulRelinHoistedNew *)
    destruct XW as (Ha & Hb & XW). destruct (forms_get pp cs src hs a i FO Ha) as (ha & x & lx & G1 & G2 & G3 & G4 & G5 & G6). destruct (forms_get pp cs src hs b j FO Hb) as (hb & y & ly & Y1 & Y2 & Y3 & Y4 & Y5 & Y6).
    apply (STEP (KMul i j)); [reflexivity|exact XW|]. intros st1 c C. cbn [xcall]. rewrite G3, Y3, G1, Y1. cbn [rbind]. unfold kcall in C. rewrite G3, Y3 in C. cbn [rbind] in C.
    destruct (REG i x G2) as (tx & _ & _ & _ & _ & _ & KX & _ & IX & _). destruct (REG j y Y2) as (ty & _ & _ & _ & _ & _ & KY & _ & IY & _).
    assert (RD : k_relin pp crs rs s r B T pids) by (inversion F; assumption). destruct RD as (ca & cu & GA & GU & CA & CU & HK).
    rewrite (hoisted_mul pp WF (w n 0%nat) crs pscale x y (i =? j)%nat ha hb rs lx ly); trivial; try apply O.
    + destruct (MulRelinNew _ _ _ _ _ _ _ _) as [v|]; cbn [rbind] in *; [|discriminate C]. injection C as <- <-. reflexivity.
    + intros E. apply Nat.eqb_eq in E. subst j. congruence.
    + intros id [Hid|Hid]; (destruct (has_relin_ok pp crs rs B T id (s id) (r id) ca cu WF SM GA GU CA CU) as (key & KG & _); [apply HK|exists key; exact KG]); [apply IX, KX|apply IY, KY]; exact Hid.
  - (* RotateHoistedNew *)
    destruct XW as (Ha & AV & XW). destruct (forms_get pp cs src hs a i FO Ha) as (ha & x & lx & G1 & G2 & G3 & G4 & G5 & G6).
    apply (STEP (KRot i k)); [reflexivity|exact XW|]. intros st1 c C. cbn [xcall]. rewrite G3, G1. cbn [rbind]. unfold kcall in C. rewrite G3 in C. cbn [rbind] in C.
    rewrite (C23_hoisted N pp (w n) crs x k ha rk lx WF (O n) G4 G5 G6).
    replace ((k mod Z.of_nat (N / 2) =? 0) || mhas Z.eq_dec crs (k mod Z.of_nat (N / 2))) with true.
    + destruct (RotateNew _ _ _ _ _ _) as [v|]; cbn [rbind] in *; [|discriminate C]. injection C as <- <-. reflexivity.
    + symmetry. apply orb_true_iff. destruct AV as [HA|HA]; [left; apply Z.eqb_eq; exact HA|right]. unfold mhas. destruct (mget Z.eq_dec crs (k mod Z.of_nat (N / 2))); [reflexivity|contradiction].
  - (* CopyNew *)
    apply (STEP (KDrop i 0)); [reflexivity|exact XW|]. intros st1 c C. cbn [xcall]. unfold kcall in C. unfold BasisExt.idx in *. destruct (nth_error cs i) as [x|] eqn:EX; cbn [rbind] in *; [|discriminate C].
    destruct (REG i x EX) as (tx & _ & W & _). rewrite (copy_drop0 pp (w n 0%nat) x (klev tx) (O n 0%nat) W) in C. destruct (ckCopyNew _ _) as [v|]; cbn [rbind] in *; [|discriminate C]. injection C as <- <-. reflexivity.
Qed.
Print Assumptions C57_hoisting.

(** ** from key generation and encryption on *)
(** EncryptMsgNew on every input, then the program that hoists *)
Definition xsession {N} pp (pscale : f64) crs (rs : rlkset N) (rk : rotset N) (ck : conjset N) pts (pk : string -> publicKey N) (w : nat -> nat -> IdSetModel.order) (oe : nat -> list string -> list string) (ins : list (kinput N))
  (prog : list xinstr) (st : evalst N) : res (@xstate N) :=
  cs <- kencrypt pp pscale pk oe ins ;; xrun pp pscale crs rs rk ck pts w 0 prog (st, cs, nil).

(** the registers of the program that hoists are those of the program that does not; decryption gives the slots the program stands for *)
Theorem C57_end_to_end : forall N pp pscale B T M mu eps crs (rs : rlkset N) (rk : rotset N) (ck : conjset N) sks (pk : string -> publicKey N) (s r : string -> R N) (pids : list string) rots
  (w : nat -> nat -> IdSetModel.order) (oe : nat -> list string -> list string) (o : IdSetModel.order) (pt : poly N) pts pis zpts (ins : list (kinput N)) (prog : list xinstr) st ts' a t,
  wfp N pp -> fpos pscale -> (forall n m, order_ok (w n m)) -> (forall n, ord1_ok (oe n)) -> order_ok o -> small_ok pp B -> small_ok pp T -> pool_ok pp st ->
  (forall i, In i ([0; -1; -2] ++ rots) -> exists c, mget Z.eq_dec crs i = Some c /\ crs_ok pp c) ->
  mwf sks -> (forall id k, mget seq_dec sks id = Some k -> In id pids) ->
  (forall id, In id pids -> id <> id0 /\ kgenerated pp B T crs rs rk ck sks rots pk id (s id) (r id)) ->
  (forall x, In x ins -> In (ki_id x) pids /\ kinput_ok pp pscale B T M mu eps x) ->
  (forall p q, nth_error pis p = Some q -> exists x, nth_error pts p = Some x /\ kplainreg pp x q (nth p zpts zslots)) ->
  krots crs (xerase prog) rots -> xwell crs (length ins) nil prog -> ksteps N pp pscale crs B T pis (map (fun x => kfresh N pp pscale B T M mu eps (ki_id x)) ins) (xerase prog) ts' ->
  plevel pt = maxLevel pp -> nth_error ts' a = Some t -> fits pp t ->
  exists w' st' cs hs c p, (forall n m, order_ok (w' n m)) /\ xsession pp pscale crs rs rk ck pts pk w oe ins prog st = Ok (st', cs, hs) /\
    ksession pp pscale crs rs rk ck pts pk w' oe ins (xerase prog) st = Ok (st', cs) /\
    nth_error cs a = Some c /\ csc c = ksc t /\ Decrypt pp o (cv c) sks pt = Ok p /\ plevel p = klev t /\
    exists X, centred pp (klev t) (prows p) X /\ (forall Y, centred pp (klev t) (prows p) Y -> Y = X) /\
      forall j, (j < N / 2)%nat -> (cabs (csub (cscale (/ B2R (csc c)) (ckks_slot X j)) (nth a (kplain_run N zpts (xerase prog) (map ki_z ins)) zslots j)) <= keps t)%R.
Proof.
  intros N pp pscale B T M mu eps crs rs rk ck sks pk s r pids rots w oe o pt pts pis zpts ins prog st ts' a t WF PS O OE OD SM SMT PO HC MW HS HG HI HP HR XW ST PL Ha HM.
  destruct (kend_setup pp pscale B T M mu eps crs rs rk ck sks pk s r pids rots oe ins (xerase prog)) as (cs & CS1 & CS2 & CS3 & RDY & KO & IK); trivial.
  assert (LM : length (map (fun x : kinput N => kfresh N pp pscale B T M mu eps (ki_id x)) ins) = length cs) by (rewrite map_length, CS2; reflexivity).
  assert (LZ : length (map ki_z ins) = length cs) by (rewrite map_length, CS2; reflexivity).
  destruct (C57_hoisting N pp pscale crs rs rk ck s r B T pids w pts pis zpts prog 0 0 st cs nil nil _ _ ts' WF PS SM O PO RDY ST LM LZ CS3 HP) as (w' & st' & cs' & hs' & O' & X1 & X2).
  { split; [reflexivity|]. intros x i h E. destruct x; discriminate E. }
  { rewrite CS2. exact XW. }
  destruct (C48_end_to_end N pp pscale B T M mu eps crs rs rk ck sks pk s r pids rots w' oe o pt pts pis zpts ins (xerase prog) st ts' a t) as (st2 & cs2 & c & p & A1 & A); trivial.
  assert (E : ksession pp pscale crs rs rk ck pts pk w' oe ins (xerase prog) st = Ok (st', cs')) by (unfold ksession; rewrite CS1; exact X2).
  rewrite E in A1. injection A1 as <- <-. exists w', st', cs', hs', c, p. split; [exact O'|]. split; [unfold xsession; rewrite CS1; exact X1|]. split; [exact E|]. exact A.
Qed.
Print Assumptions C57_end_to_end.

(** the short rule of C52 for programs that hoist *)
Theorem C57_rule : forall N pp ps B T K S eta e1 cA cF cR cM cD MN cap mu eps crs (rs : rlkset N) (rk : rotset N) (ck : conjset N) sks (pk : string -> publicKey N) (s r : string -> R N) (P : list string) rots
  (w : nat -> nat -> IdSetModel.order) (oe : nat -> list string -> list string) (o : IdSetModel.order) (pt : poly N) pts pb zpts (ins : list (kinput N)) (prog : list xinstr) st a,
  wfp N pp -> knumbers N pp ps B T K S eta e1 cA cF cR cM cD MN cap -> small_ok pp B -> small_ok pp T ->
  (forall n m, order_ok (w n m)) -> (forall n, ord1_ok (oe n)) -> order_ok o -> pool_ok pp st ->
  (forall i, In i ([0; -1; -2] ++ rots) -> exists c, mget Z.eq_dec crs i = Some c /\ crs_ok pp c) ->
  mwf sks -> (forall id k, mget seq_dec sks id = Some k -> In id P) -> (length P <= K)%nat ->
  (forall id, In id P -> id <> id0 /\ kgenerated pp B T crs rs rk ck sks rots pk id (s id) (r id)) ->
  (0 <= mu)%R -> (0 <= eps)%R -> (forall x, In x ins -> In (ki_id x) P /\ exists M, kinput_ok pp ps B T M mu eps x) ->
  (forall p, (p < length pb)%nat -> (0 <= fst (nth p pb (0, 0)) /\ 0 <= snd (nth p pb (0, 0)))%R /\ exists x M, nth_error pts p = Some x /\ kplainreg pp x (KP ps M (fst (nth p pb (0, 0)%R)) (snd (nth p pb (0, 0)%R))) (nth p zpts zslots)) ->
  krots crs (xerase prog) rots -> xwell crs (length ins) nil prog -> let bs := map (fun _ => KB (maxLevel pp) mu (eps + cF)) ins in kokrun (maxLevel pp) cA cR cM cD pb (xerase prog) bs ->
  plevel pt = maxLevel pp -> (a < length ins + length (xerase prog))%nat ->
  let b := nth a (kcost_run (maxLevel pp) cA cR cM cD pb (xerase prog) bs) (KB 0 0 0) in (bmu b + berr b <= cap (bl b))%R ->
  exists st' cs hs c p, xsession pp ps crs rs rk ck pts pk w oe ins prog st = Ok (st', cs, hs) /\ nth_error cs a = Some c /\ fpos (csc c) /\ Decrypt pp o (cv c) sks pt = Ok p /\ plevel p = bl b /\
    exists X, centred pp (bl b) (prows p) X /\ (forall Y, centred pp (bl b) (prows p) Y -> Y = X) /\
      forall j, (j < N / 2)%nat -> (cabs (csub (cscale (/ B2R (csc c)) (ckks_slot X j)) (nth a (kplain_run N zpts (xerase prog) (map ki_z ins)) zslots j)) <= berr b)%R.
Proof.
  intros N pp ps B T K S eta e1 cA cF cR cM cD MN cap mu eps crs rs rk ck sks pk s r P rots w oe o pt pts pb zpts ins prog st a WF NB SB ST O OE OD PO HC MW HSK HP HG Hmu Heps HI HPT HR XW bs OKR PL Ha b HCap.
  destruct (rule_steps pp ps B T K S eta e1 cA cF cR cM cD MN cap mu eps crs P pts pb zpts ins (xerase prog) a) as (M & pis & ts' & t & HM & HPK & STP & Et & FT & FP & K1 & K6 & KE); trivial. fold bs in K1, KE. fold b in K1, KE.
  destruct (C57_end_to_end N pp ps B T M mu eps crs rs rk ck sks pk s r P rots w oe o pt pts pis zpts ins prog st ts' a t) as (w' & st' & cs & hs & c & p & O' & A1 & _ & A2 & A3 & A4 & A5 & X & A6 & A7 & A8); trivial.
  - intros x Hx. split; [apply (HI x Hx)|apply HM; exact Hx].
  - rewrite <- K1. exists st', cs, hs, c, p. split; [exact A1|]. split; [exact A2|]. split; [rewrite A3; exact K6|]. split; [exact A4|]. split; [exact A5|]. exists X. split; [exact A6|]. split; [exact A7|]. intros j Hj. eapply Rle_trans; [apply A8; exact Hj|exact KE].
Qed.
Print Assumptions C57_rule.
