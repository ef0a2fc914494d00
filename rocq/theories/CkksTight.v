(** C58: the precision rule of C52 / C57 with the client's own bounds of the values.  The rule of C52 bounds every register by the worst case of its operands;
    a client who knows better bounds for the exact values (the plain program on slots) may use them, and the errors shrink accordingly. *)
From Flocq Require Import Core BinarySingleNaN.
From Coq Require Import Znumtheory Setoid Morphisms Reals Lra.
From Verif Require Import Base IdSetModel IdSetSpec IdSetProofs KeySetModel NumTheory Negacyclic Ntt Word BasisExt BasisExtProofs DecompProofs BasisSpec Rows RlweModel KeyGenModel SchemeSpec ExtProd ExtProps Galois KeyGenProofs Instance CtModel CtSpec CtProofs EncDecProofs EncMsgModel HeapModel HeapProofs PropsEnc KeySwitchModel Digits KsLoops RotProofs ConjProofs MulProofs PropsKeySwitch PropsRotate FloatModel CkksFloat CkksModel FloatProofs CkksFloatProofs CkksProofs CkksRescale PropsCkks PropsRescale PropsMulRelin BfvCross EncFresh Slots PropsSlots CkksSlots SlotNorm CkksCircuit PropsCkksCircuit CkksBudget CkksHoist PropsCkksHoist.
Open Scope Z_scope.

(** ** registers of a program on slots *)
Definition operands (i : kinstr) : list nat := match i with KAdd i j | KSub i j | KMul i j => [i; j] | KRot i _ | KConj i | KPt i _ | KDrop i _ => [i] end.
Lemma kplain_ext N zp i zs zs' : (forall a, In a (operands i) -> nth a zs zslots = nth a zs' zslots) -> kplain N zp i zs = kplain N zp i zs'.
Proof.
  intros H. destruct i; cbn [operands In] in H; unfold kplain; cbv zeta; rewrite ?(H i) by auto; rewrite ?(H j) by auto; reflexivity.
Qed.
Lemma run_more N zp prog : forall zs, exists ys, kplain_run N zp prog zs = zs ++ ys /\ length ys = length prog.
Proof.
  induction prog as [|i prog IH]; intros zs; [exists nil; rewrite app_nil_r; split; reflexivity|]. destruct (IH (zs ++ [kplain N zp i zs])) as (ys & E & L).
  exists (kplain N zp i zs :: ys). unfold kplain_run in *. cbn [fold_left]. rewrite E, <- app_assoc. split; [reflexivity|cbn; lia].
Qed.
Lemma run_keep N zp prog zs a : (a < length zs)%nat -> nth a (kplain_run N zp prog zs) zslots = nth a zs zslots.
Proof. intros H. destruct (run_more N zp prog zs) as (ys & -> & _). apply app_nth1. exact H. Qed.
Lemma run_at N zp prog : forall zs k i, nth_error prog k = Some i -> (forall a, In a (operands i) -> (a < length zs + k)%nat) ->
  nth (length zs + k) (kplain_run N zp prog zs) zslots = kplain N zp i (kplain_run N zp prog zs).
Proof.
  induction prog as [|i0 prog IH]; intros zs k i E H; [destruct k; discriminate E|].
  change (kplain_run N zp (i0 :: prog) zs) with (kplain_run N zp prog (zs ++ [kplain N zp i0 zs])). destruct k as [|k].
  - injection E as ->. rewrite run_keep by (rewrite app_length; cbn; lia). rewrite app_nth2 by lia. replace (length zs + 0 - length zs)%nat with 0%nat by lia. cbn [nth].
    apply kplain_ext. intros a Ha. apply H in Ha. rewrite run_keep by (rewrite app_length; cbn; lia). rewrite app_nth1 by lia. reflexivity.
  - cbn [nth_error] in E. replace (length zs + S k)%nat with (length (zs ++ [kplain N zp i0 zs]) + k)%nat by (rewrite app_length; cbn; lia). apply IH; [exact E|].
    intros a Ha. rewrite app_length. cbn. apply H in Ha. lia.
Qed.


(** ** the rule with bounds [vs] of the exact values *)
Section Rule.
  Variables (L : nat) (cA cR cM cD : RR) (pb : list (RR * RR)) (vs : nat -> RR).
  (** level and error as in [kcost], the bound of the value from the client: register number n is bounded by vs n *)
  Definition tcost (i : kinstr) (bs : list kb) : kb := let b := kcost L cA cR cM cD pb i bs in KB (bl b) (vs (length bs)) (berr b).
  Fixpoint tokrun (prog : list kinstr) (bs : list kb) : Prop := match prog with nil => True | i :: prog => kokb L pb i bs /\ tokrun prog (bs ++ [tcost i bs]) end.
  Definition tcost_run (prog : list kinstr) (bs : list kb) : list kb := fold_left (fun bs i => bs ++ [tcost i bs]) prog bs.
  Definition tfresh (n : nat) (e : RR) : list kb := map (fun a => KB L (vs a) e) (seq 0 n).
End Rule.

(** the description of a register with another bound of its exact value *)
Definition rebound (t : kinfo) (mu : RR) : kinfo := KI (kids t) (klev t) (ksc t) (kM t) mu (keps t).
Lemma kreg_rebound {N} pp (s : string -> R N) pids c t z mu : (forall j, (j < N / 2)%nat -> (cabs (z j) <= mu)%R) -> kreg pp s pids c t z -> kreg pp s pids c (rebound t mu) z.
Proof.
  intros H (W & HL & SC & FP & K & ND & IN & m & D & BM & NM). repeat (split; [assumption|]). exists m. split; [exact D|]. split; [exact BM|]. intros j Hj. split; [apply NM; exact Hj|apply H; exact Hj].
Qed.
Lemma krel_rebound pp P S e1 t b mu : (0 <= mu)%R -> krel pp P S e1 t b -> krel pp P S e1 (rebound t mu) (KB (bl b) mu (berr b)).
Proof. intros H (A1 & A2 & A3 & A4 & A5 & A6 & A7 & A8 & A9). unfold krel, rebound. cbn [klev ksc kids kmu keps bl bmu berr]. repeat (split; [first [assumption|reflexivity]|]). assumption. Qed.

(** a register that fits into its modulus decrypts to its value within its error *)
Lemma kreg_decrypts {N} pp (s : string -> R N) pids (o : IdSetModel.order) sks (pt : poly N) c t z : wfp N pp -> order_ok o -> kreg pp s pids c t z ->
  keys_ok pp (fun _ => True) s sks -> plevel pt = maxLevel pp -> incl (kids t) (keys sks) -> fits pp t ->
  exists p, Decrypt pp o (cv c) sks pt = Ok p /\ plevel p = klev t /\ exists X, centred pp (klev t) (prows p) X /\ (forall Y, centred pp (klev t) (prows p) Y -> Y = X) /\
    forall j, (j < N / 2)%nat -> (cabs (csub (cscale (/ B2R (csc c)) (ckks_slot X j)) (z j)) <= keps t)%R.
Proof.
  intros WF O' (W & HL & SC & FP & K & ND & IN & m & D & BM & NM) KO PL I HM.
  destruct (C15_value N pp (klev t) false o (cv c) s sks pt WF HL O' W) as (p & P1 & P2 & P3).
  { destruct KO as [A C]. split; [exact A|]. intros id k Hk. destruct (C id k Hk) as [C1 C2]. split; [exact C1|]. intros _. apply C2. exact Logic.I. }
  { intros x Hx. apply I. apply K. exact Hx. }
  rewrite PL in P2, P3. replace (Nat.min (klev t) (maxLevel pp)) with (klev t) in * by (unfold maxLevel; lia).
  exists p. split; [exact P1|]. split; [exact P2|].
  assert (CM : centred pp (klev t) (prows p) m).
  { split.
    - intros j i Hj Hi. destruct (P3 j Hj) as [_ E]. assert (E' := eqm_trans _ _ _ _ E (D j Hj)). unfold pvalue in E'. cbn [pntt prows] in E'. rewrite eqm_co in E'. apply E'. exact Hi.
    - intros i Hi. destruct HM as [HM|HM]; [specialize (BM i Hi); lia|].
      assert (BS : bnd m ((qlev pp (klev t) - 1) / 2)).
      { apply (near_bnd (pow2N pp WF) (proj1 (wf_N _ _ WF)) m _ _ _ _ _ (proj2 FP) NM). set (q := qlev pp (klev t)) in *. pose proof (Z.div_mod (q - 1) 2 ltac:(lia)). pose proof (Z.mod_pos_bound (q - 1) 2 ltac:(lia)).
        set (h := (q - 1) / 2) in *. assert (X : (IZR q <= 2 * IZR (h + 1))%R) by (rewrite <- (mult_IZR 2); apply IZR_le; lia). lra. }
      specialize (BS i Hi). set (q := qlev pp (klev t)) in *. pose proof (Z.mul_div_le (q - 1) 2 ltac:(lia)). lia. }
  exists m. split; [exact CM|]. split; [intros Y CY; apply (centred_unique pp (klev t) (prows p)); assumption|]. intros j Hj. rewrite SC. apply NM. exact Hj.
Qed.

(** the program that hoists, with the client's bounds: every register holds its value, described by the rule *)
Lemma tight_run {N} pp pscale crs (rs : rlkset N) (rk : rotset N) (ck : conjset N) (s r : string -> R N) B T (pids : list string) (w : nat -> nat -> IdSetModel.order)
  (pts : list (poly N * f64)) (pis : list kpinfo) (zpts : list slots) L cA cR cM cD pb vs S e1 (Z0 : list slots) :
  wfp N pp -> fpos pscale -> small_ok pp B -> (forall n m, order_ok (w n m)) ->
  (forall p q, nth_error pis p = Some q -> exists x, nth_error pts p = Some x /\ kplainreg pp x q (nth p zpts zslots)) ->
  (forall i ts bs, kinv pp pids S e1 ts bs -> kokb L pb i bs -> exists t, kstep N pp pscale crs B T pis ts i t /\ krel pp pids S e1 t (kcost L cA cR cM cD pb i bs)) ->
  (forall a, (a < length Z0)%nat -> (0 <= vs a)%R /\ forall j, (j < N / 2)%nat -> (cabs (nth a Z0 zslots j) <= vs a)%R) ->
  forall prog n st (cs : list (ckct N)) src hs ts zs bs, pool_ok pp st -> Forall (kready pp crs rs rk ck s r B T pids) (xerase prog) ->
  length ts = length cs -> length zs = length cs -> (forall a c t, nth_error cs a = Some c -> nth_error ts a = Some t -> kreg pp s pids c t (nth a zs zslots)) ->
  kinv pp pids S e1 ts bs -> tokrun L cA cR cM cD pb vs (xerase prog) bs -> kplain_run N zpts (xerase prog) zs = Z0 -> forms pp cs src hs -> xwell crs (length cs) src prog ->
  exists st' cs' hs' ts', xrun pp pscale crs rs rk ck pts w n prog (st, cs, hs) = Ok (st', cs', hs') /\ length ts' = length cs' /\ length cs' = length Z0 /\
    (forall a c t, nth_error cs' a = Some c -> nth_error ts' a = Some t -> kreg pp s pids c t (nth a Z0 zslots)) /\ kinv pp pids S e1 ts' (tcost_run L cA cR cM cD pb vs (xerase prog) bs).
Proof.
  intros WF PS SM O HP SR HV prog. induction prog as [|i prog IH]; intros n st cs src hs ts zs bs PO F L1 L2 H KI TO EZ FO XW.
  { cbn [xerase flat_map] in *. unfold kplain_run in EZ. cbn [fold_left] in EZ. subst Z0. exists st, cs, hs, ts. split; [reflexivity|]. split; [exact L1|]. split; [symmetry; exact L2|]. split; [exact H|exact KI]. }
  assert (REG : forall a c, nth_error cs a = Some c -> exists t, nth_error ts a = Some t /\ kreg pp s pids c t (nth a zs zslots)).
  { intros a c E. destruct (nth_error ts a) as [t|] eqn:ET; [exists t; split; [reflexivity|apply H; assumption]|]. apply nth_error_None in ET. assert (a < length cs)%nat by (apply nth_error_Some; congruence). lia. }
  assert (STEP : forall k, xerase1 i = [k] -> xwell crs (Datatypes.S (length cs)) src prog ->
     (forall st1 c, kcall pp pscale crs rs rk ck pts (w n) st cs k = Ok (st1, c) -> xcall pp pscale crs rs rk ck pts (w n) (st, cs, hs) i = Ok (st1, cs ++ [c], hs)) ->
     exists st' cs' hs' ts', xrun pp pscale crs rs rk ck pts w n (i :: prog) (st, cs, hs) = Ok (st', cs', hs') /\ length ts' = length cs' /\ length cs' = length Z0 /\
       (forall a c t, nth_error cs' a = Some c -> nth_error ts' a = Some t -> kreg pp s pids c t (nth a Z0 zslots)) /\ kinv pp pids S e1 ts' (tcost_run L cA cR cM cD pb vs (xerase (i :: prog)) bs)).
  { intros k EK XW' HX. change (xerase (i :: prog)) with (xerase1 i ++ xerase prog) in *. rewrite EK in *. cbn [app] in *. destruct TO as [TO1 TO2].
    destruct (SR k ts bs KI TO1) as (t & S1 & KR). inversion F as [|? ? F1 F2]; subst.
    destruct (kcall_ok pp WF pscale PS crs rs rk ck s r B T SM pids (w n) st pts pis zpts k cs ts zs t (O n) PO F1 S1 L1 H HP) as (st1 & c & C1 & C2 & C3).
    destruct KI as [KL KI]. set (v := vs (length bs)) in *. set (zk := kplain N zpts k zs) in *.
    assert (EZ' : kplain_run N zpts (k :: xerase prog) zs = kplain_run N zpts (xerase prog) (zs ++ [zk])) by reflexivity.
    assert (LZ : (length zs < length (kplain_run N zpts (k :: xerase prog) zs))%nat).
    { destruct (run_more N zpts (k :: xerase prog) zs) as (ys & Ey & Ly). rewrite Ey, app_length. cbn [length] in Ly. lia. }
    assert (EV : nth (length zs) (kplain_run N zpts (k :: xerase prog) zs) zslots = zk).
    { rewrite EZ', run_keep by (rewrite app_length; cbn; lia). rewrite app_nth2, Nat.sub_diag by lia. reflexivity. }
    destruct (HV (length zs) LZ) as [V0 V1]. rewrite EV in V1. replace (length zs) with (length bs) in V0, V1 by lia. fold v in V0, V1.
    destruct (IH (Datatypes.S n) st1 (cs ++ [c]) src hs (ts ++ [rebound t v]) (zs ++ [zk]) (bs ++ [tcost L cA cR cM cD pb vs k bs])) as (st' & cs' & hs' & ts' & X1 & X2 & X3 & X4 & X5); trivial.
    - rewrite !app_length. cbn. lia.
    - rewrite !app_length. cbn. lia.
    - intros a c' t'. rewrite !nth_error_snoc, L1. destruct (Nat.eqb_spec a (length cs)) as [->|NE].
      + intros E1 E2. injection E1 as <-. injection E2 as <-. rewrite app_nth2 by lia. rewrite L2, Nat.sub_diag. cbn [nth]. apply kreg_rebound; assumption.
      + intros E1 E2. assert (a < length cs)%nat by (apply nth_error_Some; congruence). rewrite app_nth1 by lia. apply H; assumption.
    - split; [rewrite !app_length; cbn; lia|]. intros a x. rewrite nth_error_snoc. destruct (Nat.eqb_spec a (length ts)) as [->|NE].
      + intros E1. injection E1 as <-. rewrite app_nth2 by lia. rewrite KL, Nat.sub_diag. cbn [nth]. unfold tcost. apply krel_rebound; assumption.
      + intros E1. assert (a < length ts)%nat by (apply nth_error_Some; congruence). rewrite app_nth1 by lia. apply KI. exact E1.
    - apply forms_more. exact FO.
    - rewrite app_length. cbn [length]. rewrite Nat.add_1_r. exact XW'.
    - exists st', cs', hs', ts'. split; [cbn [xrun]; rewrite (HX _ _ C1); cbn [rbind]; exact X1|]. split; [exact X2|]. split; [exact X3|]. split; [exact X4|exact X5]. }
  destruct i as [k|i|i j a b|i k a|i]; cbn [xwell] in XW.
  - apply (STEP k); [reflexivity|exact XW|]. intros st1 c C. cbn [xcall]. rewrite C. reflexivity.
  - (* HoistedForm *)
    destruct XW as [HI XW]. destruct (nth_error cs i) as [c|] eqn:EC; [|apply nth_error_None in EC; lia]. destruct (REG i c EC) as (t & ET & W & HL & _).
    destruct (form_ok pp WF (w n 0%nat) c (klev t) (O n 0%nat) HL W) as (h & A1 & A2).
    destruct (IH (Datatypes.S n) st cs (src ++ [i]) (hs ++ [h]) ts zs bs) as (st' & cs' & hs' & ts' & X1 & X); trivial.
    + destruct FO as [FL FF]. split; [rewrite !app_length; cbn; lia|]. intros q i' h'. rewrite !nth_error_snoc, FL. destruct (Nat.eqb_spec q (length hs)) as [->|NE]; [|apply FF].
      intros E1 E2. injection E1 as <-. injection E2 as <-. exists c, (klev t). split; [exact EC|]. split; [exact HL|]. split; assumption.
    + exists st', cs', hs', ts'. split; [|exact X]. cbn [xrun xcall]. unfold BasisExt.idx at 1. rewrite EC. cbn [rbind]. rewrite A1. cbn [rbind]. exact X1.
  - (* MulRelinHoistedNew *)
    destruct XW as (Ha & Hb & XW). destruct (forms_get pp cs src hs a i FO Ha) as (ha & x & lx & G1 & G2 & G3 & G4 & G5 & G6). destruct (forms_get pp cs src hs b j FO Hb) as (hb & y & ly & Y1 & Y2 & Y3 & Y4 & Y5 & Y6).
    apply (STEP (KMul i j)); [reflexivity|exact XW|]. intros st1 c C. cbn [xcall]. rewrite G3, Y3, G1, Y1. cbn [rbind]. unfold kcall in C. rewrite G3, Y3 in C. cbn [rbind] in C.
    destruct (REG i x G2) as (tx & _ & _ & _ & _ & _ & KX & _ & IX & _). destruct (REG j y Y2) as (ty & _ & _ & _ & _ & _ & KY & _ & IY & _).
    assert (RD : k_relin pp crs rs s r B T pids) by (inversion F; assumption). destruct RD as (ca & cu & GA & GU & CA & CU & HK).
    rewrite (hoisted_mul pp WF (w n 0%nat) crs pscale x y (i =? j)%nat ha hb rs lx ly); trivial; try apply O.
    + destruct (MulRelinNew _ _ _ _ _ _ _ _) as [v|]; cbn [rbind] in *; [|discriminate C]. injection C as <- <-. reflexivity.
    + intros E. apply Nat.eqb_eq in E. subst j. congruence.
    + intros id [Hid|Hid]; (destruct (has_relin_ok pp crs rs B T id (s id) (r id) ca cu WF SM GA GU CA CU) as (key & KG & _); [apply HK|exists key; exact KG]); [apply IX, KX|apply IY, KY]; exact Hid.
  - (* RotateHoistedNew *)
    destruct XW as (Ha & AV & XW). destruct (forms_get pp cs src hs a i FO Ha) as (ha & x & lx & G1 & G2 & G3 & G4 & G5 & G6).
    apply (STEP (KRot i k)); [reflexivity|exact XW|]. intros st1 c C. cbn [xcall]. rewrite G3, G1. cbn [rbind]. unfold kcall in C. rewrite G3 in C. cbn [rbind] in C.
    rewrite (C23_hoisted N pp (w n) crs x k ha rk lx WF (O n) G4 G5 G6).
    replace ((k mod Z.of_nat (N / 2) =? 0) || mhas Z.eq_dec crs (k mod Z.of_nat (N / 2))) with true.
    + destruct (RotateNew _ _ _ _ _ _) as [v|]; cbn [rbind] in *; [|discriminate C]. injection C as <- <-. reflexivity.
    + symmetry. apply orb_true_iff. destruct AV as [HA|HA]; [left; apply Z.eqb_eq; exact HA|right]. unfold mhas. destruct (mget Z.eq_dec crs (k mod Z.of_nat (N / 2))); [reflexivity|contradiction].
  - (* CopyNew *)
    apply (STEP (KDrop i 0)); [reflexivity|exact XW|]. intros st1 c C. cbn [xcall]. unfold kcall in C. unfold BasisExt.idx in *. destruct (nth_error cs i) as [x|] eqn:EX; cbn [rbind] in *; [|discriminate C].
    destruct (REG i x EX) as (tx & _ & W & _). rewrite (copy_drop0 pp (w n 0%nat) x (klev tx) (O n 0%nat) W) in C. destruct (ckCopyNew _ _) as [v|]; cbn [rbind] in *; [|discriminate C]. injection C as <- <-. reflexivity.
Qed.

(** ** C58 *)
(** keys generated, inputs encrypted, the program (with or without hoisting) run, its result decrypted: within the error of the rule, whenever the client's bounds are bounds of the exact values *)
Theorem C58_rule : forall N pp ps B T K S eta e1 cA cF cR cM cD MN cap mu eps crs (rs : rlkset N) (rk : rotset N) (ck : conjset N) sks (pk : string -> publicKey N) (s r : string -> R N) (P : list string) rots
  (w : nat -> nat -> IdSetModel.order) (oe : nat -> list string -> list string) (o : IdSetModel.order) (pt : poly N) pts pb zpts (ins : list (kinput N)) (prog : list xinstr) st a vs,
  wfp N pp -> knumbers N pp ps B T K S eta e1 cA cF cR cM cD MN cap -> small_ok pp B -> small_ok pp T ->
  (forall n m, order_ok (w n m)) -> (forall n, ord1_ok (oe n)) -> order_ok o -> pool_ok pp st ->
  (forall i, In i ([0; -1; -2] ++ rots) -> exists c, mget Z.eq_dec crs i = Some c /\ crs_ok pp c) ->
  mwf sks -> (forall id k, mget seq_dec sks id = Some k -> In id P) -> (length P <= K)%nat ->
  (forall id, In id P -> id <> id0 /\ kgenerated pp B T crs rs rk ck sks rots pk id (s id) (r id)) ->
  (0 <= mu)%R -> (0 <= eps)%R -> (forall x, In x ins -> In (ki_id x) P /\ exists M, kinput_ok pp ps B T M mu eps x) ->
  (forall p, (p < length pb)%nat -> (0 <= fst (nth p pb (0, 0)) /\ 0 <= snd (nth p pb (0, 0)))%R /\ exists x M, nth_error pts p = Some x /\ kplainreg pp x (KP ps M (fst (nth p pb (0, 0)%R)) (snd (nth p pb (0, 0)%R))) (nth p zpts zslots)) ->
  krots crs (xerase prog) rots -> xwell crs (length ins) nil prog ->
  let zs := kplain_run N zpts (xerase prog) (map ki_z ins) in
  (forall n j, (n < length ins + length (xerase prog))%nat -> (j < N / 2)%nat -> (cabs (nth n zs zslots j) <= vs n)%R) ->
  let bs := tfresh (maxLevel pp) vs (length ins) (eps + cF) in tokrun (maxLevel pp) cA cR cM cD pb vs (xerase prog) bs ->
  plevel pt = maxLevel pp -> (a < length ins + length (xerase prog))%nat ->
  let b := nth a (tcost_run (maxLevel pp) cA cR cM cD pb vs (xerase prog) bs) (KB 0 0 0) in (vs a + berr b <= cap (bl b))%R ->
  exists st' cs hs c p, xsession pp ps crs rs rk ck pts pk w oe ins prog st = Ok (st', cs, hs) /\ nth_error cs a = Some c /\ fpos (csc c) /\ Decrypt pp o (cv c) sks pt = Ok p /\ plevel p = bl b /\
    exists X, centred pp (bl b) (prows p) X /\ (forall Y, centred pp (bl b) (prows p) Y -> Y = X) /\
      forall j, (j < N / 2)%nat -> (cabs (csub (cscale (/ B2R (csc c)) (ckks_slot X j)) (nth a zs zslots j)) <= berr b)%R.
Proof.
  intros N pp ps B T K S eta e1 cA cF cR cM cD MN cap mu eps crs rs rk ck sks pk s r P rots w oe o pt pts pb zpts ins prog st a vs WF NB SB ST O OE OD PO HC MW HSK HP HG Hmu Heps HI HPT HR XW zs HV bs OKR PL Ha b HCap.
  destruct NB as [nB nT nS nH nQ nQ0 neta ne1 nA nD nF nR nMN nM ncap].
  assert (PS : fpos ps) by (destruct nS as (S0 & S1 & S2); split; [exact S1|rewrite S0; lra]).
  destruct (plain_choice pp ps pts zpts pb HPT) as (pis & HPI & HPK).
  destruct (kinput_max pp ps B T mu eps ins) as [M HM]; [intros x Hx; apply (HI x Hx)|].
  destruct (kend_setup pp ps B T M mu eps crs rs rk ck sks pk s r P rots oe ins (xerase prog)) as (cs & CS1 & CS2 & CS3 & RDY & KO & IK); trivial.
  { intros x Hx. split; [apply (HI x Hx)|apply HM; exact Hx]. }
  assert (LZ : length zs = (length ins + length (xerase prog))%nat).
  { unfold zs. destruct (run_more N zpts (xerase prog) (map ki_z ins)) as (ys & -> & Ly). rewrite app_length, map_length, Ly. reflexivity. }
  pose proof (proj1 (wf_N _ _ WF)) as N2. assert (NH : (0 < N / 2)%nat) by (apply Nat.div_str_pos; lia).
  assert (HV' : forall n, (n < length zs)%nat -> (0 <= vs n)%R /\ forall j, (j < N / 2)%nat -> (cabs (nth n zs zslots j) <= vs n)%R).
  { intros n Hn. rewrite LZ in Hn. split; [|intros j Hj; apply HV; assumption]. eapply Rle_trans; [apply cabs_nonneg|apply (HV n 0%nat Hn NH)]. }
  set (f := fun k => match nth_error ins k with Some x => rebound (kfresh N pp ps B T M mu eps (ki_id x)) (vs k) | None => KI nil 0 ps 0 0 0 end).
  set (ts := map f (seq 0 (length ins))).
  assert (TS : forall k, nth_error ts k = match nth_error ins k with Some x => Some (rebound (kfresh N pp ps B T M mu eps (ki_id x)) (vs k)) | None => None end).
  { intros k. unfold ts. rewrite nth_error_map. destruct (nth_error ins k) as [x|] eqn:E.
    - assert (Hk : (k < length ins)%nat) by (apply nth_error_Some; congruence). rewrite (nth_error_nth' _ 0%nat) by (rewrite seq_length; exact Hk). rewrite seq_nth by exact Hk. cbn [option_map Nat.add]. unfold f. rewrite E. reflexivity.
    - apply nth_error_None in E. rewrite (proj2 (nth_error_None _ _)); [reflexivity|]. rewrite seq_length. exact E. }
  assert (LT : length ts = length ins) by (unfold ts; rewrite map_length, seq_length; reflexivity).
  assert (ZI : forall k, (k < length ins)%nat -> nth k zs zslots = nth k (map ki_z ins) zslots) by (intros k Hk; unfold zs; apply run_keep; rewrite map_length; exact Hk).
  assert (R0 : forall k c t, nth_error cs k = Some c -> nth_error ts k = Some t -> kreg pp s P c t (nth k (map ki_z ins) zslots)).
  { intros k c t E1 E2. rewrite TS in E2. destruct (nth_error ins k) as [x|] eqn:EX; [|discriminate E2]. injection E2 as <-. assert (Hk : (k < length ins)%nat) by (apply nth_error_Some; congruence).
    apply kreg_rebound.
    - intros j Hj. rewrite <- ZI by exact Hk. apply HV'; [rewrite LZ; lia|exact Hj].
    - apply (CS3 k c); [exact E1|]. rewrite nth_error_map, EX. reflexivity. }
  assert (I0 : kinv pp P S e1 ts bs).
  { split; [unfold bs, tfresh; rewrite map_length, seq_length; exact LT|]. intros k t E2. rewrite TS in E2. destruct (nth_error ins k) as [x|] eqn:EX; [|discriminate E2]. injection E2 as <-. assert (Hk : (k < length ins)%nat) by (apply nth_error_Some; congruence).
    unfold bs, tfresh. set (g := fun q : nat => KB (maxLevel pp) (vs q) (eps + cF)). rewrite (nth_indep _ (KB 0 0 0) (g 0%nat)) by (rewrite map_length, seq_length; exact Hk). rewrite map_nth, seq_nth by exact Hk. cbn [Nat.add]. unfold g.
    apply (krel_rebound pp P S e1 _ (KB (maxLevel pp) mu (eps + cF))); [apply HV'; rewrite LZ; lia|]. eapply fresh_rel; eauto. apply (HI x). apply (nth_error_In _ _ EX). }
  destruct (tight_run pp ps crs rs rk ck s r B T P w pts pis zpts (maxLevel pp) cA cR cM cD pb vs S e1 zs WF PS SB O HPK
    (fun i ts bs => step_rel pp WF ps crs B T nB nT K P HP S eta e1 cA cR cM cD MN nS nH nQ nQ0 neta ne1 nA nD nR nMN nM pis pb HPI i ts bs) HV' prog 0 st cs nil nil ts (map ki_z ins) bs PO RDY) as (st' & cs' & hs' & ts' & X1 & X2 & X3 & X4 & X5 & X6); trivial.
  { rewrite LT, CS2. reflexivity. }
  { rewrite map_length, CS2. reflexivity. }
  { split; [reflexivity|]. intros x i h E. destruct x; discriminate E. }
  { rewrite CS2. exact XW. }
  assert (Ha' : (a < length cs')%nat) by (rewrite X3, LZ; exact Ha).
  destruct (nth_error cs' a) as [c|] eqn:Ec; [|apply nth_error_None in Ec; lia]. destruct (nth_error ts' a) as [t|] eqn:Et; [|apply nth_error_None in Et; lia].
  pose proof (X6 a t Et) as KR. fold b in KR. pose proof (X4 a c t Ec Et) as KG.
  assert (CL : (99 / 100 * S <= B2R (ksc t) <= 101 / 100 * S)%R) by (apply (close pp ps K P HP S eta e1 nS ne1 _ (klev t)); apply KR).
  destruct KR as (K1 & K2 & K3 & K4 & K5 & K6 & K7 & K8 & K9).
  (* the value of the register is bounded by vs a: lower the bound of its description *)
  assert (KG' : kreg pp s P c (rebound t (vs a)) (nth a zs zslots)) by (apply kreg_rebound; [apply HV'; rewrite LZ; exact Ha|exact KG]).
  assert (VA : (0 <= vs a)%R) by (apply HV'; rewrite LZ; exact Ha).
  assert (FT : fits pp (rebound t (vs a))).
  { right. unfold rebound. cbn [ksc kmu keps klev]. pose proof (ncap (klev t) K2) as C. rewrite K1 in C at 1. eapply Rle_lt_trans; [|exact C].
    assert (Z0 : (0 <= vs a + keps t <= cap (bl b))%R) by lra. rewrite Rmult_assoc. apply Rmult_le_compat_l; [lra|]. destruct nS as (_ & _ & S2). apply Rmult_le_compat; lra. }
  destruct (kreg_decrypts pp s P o sks pt c (rebound t (vs a)) (nth a zs zslots) WF OD KG' KO PL) as (p & D1 & D2 & X & D3 & D4 & D5); [|exact FT|].
  { intros x Hx. apply IK. apply K9. exact Hx. }
  exists st', cs', hs', c, p. split; [unfold xsession; rewrite CS1; cbn [rbind]; exact X1|]. split; [exact Ec|]. split; [destruct KG as (_ & _ & SC & FP & _); rewrite SC; exact FP|]. split; [exact D1|].
  rewrite <- K1. split; [exact D2|]. exists X. split; [exact D3|]. split; [exact D4|]. intros j Hj. eapply Rle_trans; [apply D5; exact Hj|]. unfold rebound. cbn [keps]. lra.
Qed.
Print Assumptions C58_rule.
