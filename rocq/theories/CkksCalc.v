(** C58: the precision rule as a calculator on integers (fixed point, 60 fractional bits, everything rounded up), so that the conditions of C58_rule are decided by running it. *)
From Flocq Require Import Core BinarySingleNaN.
From Coq Require Import Znumtheory Setoid Morphisms Reals Lra.
From Verif Require Import Base IdSetModel KeySetModel NumTheory Negacyclic Ntt Word BasisExt Rows RlweModel KeyGenModel CtModel CtSpec CtProofs EncMsgModel KeySwitchModel RotProofs PropsRotate PropsEnc FloatModel CkksFloat CkksModel CkksProofs PropsRescale Slots PropsSlots CkksSlots CkksCircuit PropsCkksCircuit PropsCkksScale Shipped CkksBudget CkksHoist PropsCkksHoist PropsCkksShipped CkksTight PropsCkksTight.
From Verif Require Import PropsMulRelin BfvCross EncDecProofs KeyGenProofs SchemeSpec.
Open Scope Z_scope.

(** ** the calculator: values and errors in units of 2^-60 *)
Definition unit60 : Z := 2 ^ 60.
Definition up60 (x : Z) : Z := (x + (unit60 - 1)) / unit60.
Record zb := ZB { zl : nat; zmu : Z; zerr : Z }.
Record zconst := ZC { zA : Z; zR : Z; zM : Z; zD : Z; zpb : list (Z * Z) }.
Section Calc.
  Variables (L : nat) (k : zconst) (zvs : nat -> option Z).
  Definition zprule (l : nat) (m0 e0 m1 e1 : Z) : zb := let p := up60 (m0 * e1 + m1 * e0 + e0 * e1) in let m := up60 (m0 * m1) in ZB (l - 1) m (p + up60 (zD k * (m + p)) + zM k).
  Definition zcost (i : kinstr) (bs : list zb) : zb :=
    let b a := nth a bs (ZB 0 0 0) in
    match i with
    | KAdd i j | KSub i j => let l := Nat.min (zl (b i)) (zl (b j)) in
        ZB l (zmu (b i) + zmu (b j)) (zerr (b i) + zerr (b j) + up60 ((2 ^ Z.of_nat (L - l) - 1) * zA k * (zmu (b i) + zerr (b i) + zmu (b j) + zerr (b j))))
    | KMul i j => zprule (Nat.min (zl (b i)) (zl (b j))) (zmu (b i)) (zerr (b i)) (zmu (b j)) (zerr (b j))
    | KRot i _ | KConj i => ZB (zl (b i)) (zmu (b i)) (zerr (b i) + zR k)
    | KPt i p => let q := nth p (zpb k) (0, 0) in zprule (zl (b i)) (fst q) (snd q) (zmu (b i)) (zerr (b i))
    | KDrop i n => ZB (zl (b i) - n) (zmu (b i)) (zerr (b i))
    end.
  (** a bound given by the client replaces the computed one *)
  Definition znext (i : kinstr) (bs : list zb) : zb := let b := zcost i bs in match zvs (length bs) with Some v => ZB (zl b) v (zerr b) | None => b end.
  Definition zrun (prog : list kinstr) (bs : list zb) : list zb := fold_left (fun bs i => bs ++ [znext i bs]) prog bs.
  (** operands exist, products have a level to drop, conjugation at full level *)
  Definition zokb (i : kinstr) (bs : list zb) : bool :=
    let n := length bs in let l a := zl (nth a bs (ZB 0 0 0)) in
    match i with
    | KAdd i j | KSub i j => (i <? n)%nat && (j <? n)%nat
    | KMul i j => (i <? n)%nat && (j <? n)%nat && (1 <=? l i)%nat && (1 <=? l j)%nat
    | KRot i _ => (i <? n)%nat
    | KConj i => (i <? n)%nat && (l i =? L)%nat
    | KPt i p => (i <? n)%nat && (p <? length (zpb k))%nat && (1 <=? l i)%nat
    | KDrop i d => (i <? n)%nat && (d <=? l i)%nat
    end.
  Fixpoint zok (prog : list kinstr) (bs : list zb) : bool := match prog with nil => true | i :: prog => zokb i bs && zok prog (bs ++ [znext i bs]) end.
  (** fresh ciphertexts: bounds of the messages, one error *)
  Definition zfresh (ms : list Z) (e : Z) : list zb := map (fun m => ZB L m e) ms.
End Calc.

(** ** it bounds the rule *)
Definition fromZ (x : Z) : RR := (IZR x / IZR unit60)%R.
Lemma u60_pos : (0 < IZR unit60)%R. Proof. apply IZR_lt. reflexivity. Qed.
Lemma fromZ_add x y : fromZ (x + y) = (fromZ x + fromZ y)%R. Proof. unfold fromZ. rewrite plus_IZR. pose proof u60_pos. field. lra. Qed.
Lemma fromZ_nn x : 0 <= x -> (0 <= fromZ x)%R. Proof. intros H. unfold fromZ. apply Rmult_le_pos; [apply IZR_le; exact H|left; apply Rinv_0_lt_compat, u60_pos]. Qed.
Lemma fromZ_le x y : x <= y -> (fromZ x <= fromZ y)%R. Proof. intros H. unfold fromZ. apply Rmult_le_compat_r; [left; apply Rinv_0_lt_compat, u60_pos|apply IZR_le; exact H]. Qed.
Lemma fromZ_unit x : fromZ (x * unit60) = IZR x. Proof. unfold fromZ. rewrite mult_IZR. pose proof u60_pos. field. lra. Qed.
Lemma fromZ_nn_inv x : (0 <= fromZ x)%R -> 0 <= x.
Proof. intros H. apply le_IZR. unfold fromZ in H. pose proof u60_pos. replace (IZR x) with (IZR x / IZR unit60 * IZR unit60)%R by (field; lra). rewrite <- (Rmult_0_l (IZR unit60)). apply Rmult_le_compat_r; lra. Qed.
(** x in units of 2^-120 *)
Lemma up60_le x : (IZR x / IZR unit60 / IZR unit60 <= fromZ (up60 x))%R.
Proof.
  unfold fromZ, Rdiv. apply Rmult_le_compat_r; [left; apply Rinv_0_lt_compat, u60_pos|]. pose proof u60_pos as U. apply Rmult_le_reg_r with (IZR unit60); [exact U|]. rewrite Rmult_assoc, Rinv_l, Rmult_1_r by lra.
  rewrite <- mult_IZR. apply IZR_le. unfold up60. pose proof (Z.div_mod (x + (unit60 - 1)) unit60 ltac:(discriminate)) as D. pose proof (Z.mod_pos_bound (x + (unit60 - 1)) unit60 ltac:(reflexivity)). lia.
Qed.
Lemma up60_nn x : 0 <= x -> 0 <= up60 x. Proof. intros H. apply Z.div_pos; [unfold unit60; lia|reflexivity]. Qed.
Lemma up_mul x y : (fromZ x * fromZ y <= fromZ (up60 (x * y)))%R.
Proof. eapply Rle_trans; [|apply up60_le]. unfold fromZ. rewrite mult_IZR. pose proof u60_pos. right. field. lra. Qed.
Lemma up_mul3 a b c d e f : (fromZ a * fromZ b + fromZ c * fromZ d + fromZ e * fromZ f <= fromZ (up60 (a * b + c * d + e * f)))%R.
Proof. eapply Rle_trans; [|apply up60_le]. unfold fromZ. rewrite !plus_IZR, !mult_IZR. pose proof u60_pos. right. field. lra. Qed.
Lemma up_mulZ n x y : (IZR n * fromZ x * fromZ y <= fromZ (up60 (n * x * y)))%R.
Proof. eapply Rle_trans; [|apply up60_le]. unfold fromZ. rewrite !mult_IZR. pose proof u60_pos. right. field. lra. Qed.

(** the calculator's register bounds the rule's register *)
Definition zrel (b : kb) (z : zb) : Prop := bl b = zl z /\ (0 <= bmu b <= fromZ (zmu z))%R /\ (0 <= berr b <= fromZ (zerr z))%R.
Section Sound.
  Variables (L : nat) (k : zconst) (zvs : nat -> option Z) (cA cR cM cD : RR) (pb : list (RR * RR)).
  Hypotheses (HA : (0 <= cA <= fromZ (zA k))%R) (HR : (0 <= cR <= fromZ (zR k))%R) (HM : (0 <= cM <= fromZ (zM k))%R) (HD : (0 <= cD <= fromZ (zD k))%R).
  Hypotheses (HPL : length pb = length (zpb k)) (HPB : forall p, (p < length pb)%nat -> (0 <= fst (nth p pb (0, 0)) <= fromZ (fst (nth p (zpb k) (0, 0)%Z)))%R /\ (0 <= snd (nth p pb (0, 0)) <= fromZ (snd (nth p (zpb k) (0, 0)%Z)))%R).
  Lemma zrel0 : zrel (KB 0 0 0) (ZB 0 0 0).
  Proof using. unfold zrel, fromZ. cbn [bl bmu berr zl zmu zerr]. replace (0 / IZR unit60)%R with 0%R by (unfold Rdiv; ring). split; [reflexivity|]. split; lra. Qed.
  Lemma prule_rel l m0 e0 m1 e1 x0 d0 x1 d1 : (0 <= m0 <= fromZ x0)%R -> (0 <= e0 <= fromZ d0)%R -> (0 <= m1 <= fromZ x1)%R -> (0 <= e1 <= fromZ d1)%R -> zrel (prule cM cD l m0 e0 m1 e1) (zprule k l x0 d0 x1 d1).
  Proof.
    intros A B C D. unfold zrel, prule, zprule. cbn [bl bmu berr zl zmu zerr]. split; [reflexivity|].
    assert (M : (0 <= m0 * m1 <= fromZ (up60 (x0 * x1)))%R). { destruct (prod_mono _ _ _ _ A C) as [M0 M1]. split; [exact M0|]. eapply Rle_trans; [exact M1|apply up_mul]. }
    split; [exact M|]. set (p := (m0 * e1 + m1 * e0 + e0 * e1)%R). set (p' := up60 (x0 * d1 + x1 * d0 + d0 * d1)).
    assert (Hp : (0 <= p <= fromZ p')%R).
    { destruct (prod_mono _ _ _ _ A D) as [a0 a1]. destruct (prod_mono _ _ _ _ C B) as [b0 b1]. destruct (prod_mono _ _ _ _ B D) as [c0 c1]. pose proof (up_mul3 x0 d1 x1 d0 d0 d1) as U. unfold p, p'. lra. }
    rewrite !fromZ_add. set (m := (m0 * m1)%R) in *. set (m' := up60 (x0 * x1)) in *.
    assert (Q : (0 <= cD * (m + p) <= fromZ (up60 (zD k * (m' + p'))))%R).
    { destruct (prod_mono cD _ (m + p) (fromZ (m' + p')) HD) as [q0 q1]; [rewrite fromZ_add; lra|]. split; [exact q0|]. eapply Rle_trans; [exact q1|apply up_mul]. }
    lra.
  Qed.
  Definition zrels (bs : list kb) (zs : list zb) : Prop := length bs = length zs /\ forall a, zrel (nth a bs (KB 0 0 0)) (nth a zs (ZB 0 0 0)).
  Lemma zcost_rel i bs zs : zrels bs zs -> kokb L pb i bs -> zrel (kcost L cA cR cM cD pb i bs) (zcost L k i zs).
  Proof.
    intros [HL H] OK.
    assert (S2 : forall x y, zrel (kcost L cA cR cM cD pb (KAdd x y) bs) (zcost L k (KAdd x y) zs)).
    { intros x y. destruct (H x) as (A1 & A2 & A3). destruct (H y) as (B1 & B2 & B3). cbn [kcost zcost]. rewrite A1, B1. unfold zrel. cbn [bl bmu berr zl zmu zerr]. split; [reflexivity|]. rewrite !fromZ_add. split; [lra|].
      set (l := Nat.min _ _) in *. set (n := 2 ^ Z.of_nat (L - l) - 1). set (s := (bmu (nth x bs (KB 0 0 0)) + berr (nth x bs (KB 0 0 0)) + bmu (nth y bs (KB 0 0 0)) + berr (nth y bs (KB 0 0 0)))%R).
      set (s' := zmu (nth x zs (ZB 0 0 0)) + zerr (nth x zs (ZB 0 0 0)) + zmu (nth y zs (ZB 0 0 0)) + zerr (nth y zs (ZB 0 0 0))).
      assert (S : (0 <= s <= fromZ s')%R) by (unfold s, s'; rewrite !fromZ_add; lra).
      assert (N0 : (0 <= IZR n)%R) by (apply IZR_le; unfold n; pose proof (Z.pow_pos_nonneg 2 (Z.of_nat (L - l)) ltac:(lia) ltac:(lia)); lia).
      assert (NA : (0 <= IZR n * cA <= IZR n * fromZ (zA k))%R) by (split; [apply Rmult_le_pos; lra|apply Rmult_le_compat_l; lra]).
      destruct (prod_mono _ _ _ _ NA S) as [q0 q1]. pose proof (up_mulZ n (zA k) s'). lra. }
    destruct i as [i j|i j|i j|i r|i|i p|i n]; [apply (S2 i j)|apply (S2 i j)| | | | |]; cbn [kcost zcost kokb] in *.
    - destruct (H i) as (A1 & A2 & A3). destruct (H j) as (B1 & B2 & B3). rewrite A1, B1. apply prule_rel; assumption.
    - destruct (H i) as (A1 & A2 & A3). unfold zrel. cbn [bl bmu berr zl zmu zerr]. rewrite fromZ_add. split; [exact A1|]. split; [exact A2|lra].
    - destruct (H i) as (A1 & A2 & A3). unfold zrel. cbn [bl bmu berr zl zmu zerr]. rewrite fromZ_add. split; [exact A1|]. split; [exact A2|lra].
    - destruct (H i) as (A1 & A2 & A3). destruct (HPB p) as [P1 P2]; [apply OK|]. rewrite A1. apply prule_rel; assumption.
    - destruct (H i) as (A1 & A2 & A3). unfold zrel. cbn [bl bmu berr zl zmu zerr]. split; [congruence|]. split; assumption.
  Qed.
  Lemma zokb_ok i bs zs : zrels bs zs -> zokb L k i zs = true -> kokb L pb i bs.
  Proof.
    intros [HL H] OK. assert (LV : forall a, bl (nth a bs (KB 0 0 0)) = zl (nth a zs (ZB 0 0 0))) by (intros a; apply H).
    destruct i as [i j|i j|i j|i r|i|i p|i n]; cbn [kokb zokb] in *; rewrite ?LV; repeat (apply andb_prop in OK as [OK ?]); repeat match goal with X : (_ <? _)%nat = true |- _ => apply Nat.ltb_lt in X | X : (_ <=? _)%nat = true |- _ => apply Nat.leb_le in X | X : (_ =? _)%nat = true |- _ => apply Nat.eqb_eq in X end; lia.
  Qed.
  Lemma zrun_more prog : forall zs, exists l, zrun L k zvs prog zs = zs ++ l /\ length l = length prog.
  Proof using. clear.
    induction prog as [|i prog IH]; intros zs; [exists nil; rewrite app_nil_r; split; reflexivity|]. destruct (IH (zs ++ [znext L k zvs i zs])) as (l & E & EL).
    exists (znext L k zvs i zs :: l). unfold zrun in *. cbn [fold_left]. rewrite E, <- app_assoc. split; [reflexivity|cbn; lia].
  Qed.
  Variables (N : nat) (zpts : list slots).
  Hypothesis NH : (0 < N / 2)%nat.
  Hypothesis HP : forall p j, (p < length pb)%nat -> (j < N / 2)%nat -> (cabs (nth p zpts zslots j) <= fst (nth p pb (0, 0)))%R.
  (** the bounds of the calculator are bounds of the exact values, if those given by the client are *)
  Lemma calc_sound vs prog : forall bs zs ys, zrels bs zs -> within N bs ys ->
    (forall n, (length bs <= n < length bs + length prog)%nat -> vs n = fromZ (zmu (nth n (zrun L k zvs prog zs) (ZB 0 0 0)))) ->
    (forall n v j, (length bs <= n < length bs + length prog)%nat -> zvs n = Some v -> (j < N / 2)%nat -> (cabs (nth n (kplain_run N zpts prog ys) zslots j) <= fromZ v)%R) ->
    zok L k zvs prog zs = true ->
    tokrun L cA cR cM cD pb vs prog bs /\ zrels (tcost_run L cA cR cM cD pb vs prog bs) (zrun L k zvs prog zs) /\ within N (tcost_run L cA cR cM cD pb vs prog bs) (kplain_run N zpts prog ys).
  Proof.
    induction prog as [|i prog IH]; intros bs zs ys RZ W HV HC OK; [split; [exact Logic.I|split; assumption]|].
    cbn [zok] in OK. apply andb_prop in OK as [O1 O2]. pose proof (zokb_ok i bs zs RZ O1) as KO. pose proof (zcost_rel i bs zs RZ KO) as (C1 & C2 & C3).
    pose proof (kcost_within N L cA cR cM cD pb zpts NH HP i bs ys W KO) as CW. destruct RZ as [RL RZ]. destruct W as [WL W].
    change (zrun L k zvs (i :: prog) zs) with (zrun L k zvs prog (zs ++ [znext L k zvs i zs])) in *. change (kplain_run N zpts (i :: prog) ys) with (kplain_run N zpts prog (ys ++ [kplain N zpts i ys])) in *.
    change (tcost_run L cA cR cM cD pb vs (i :: prog) bs) with (tcost_run L cA cR cM cD pb vs prog (bs ++ [tcost L cA cR cM cD pb vs i bs])).
    assert (V : vs (length bs) = fromZ (zmu (znext L k zvs i zs))).
    { rewrite HV by (cbn; lia). destruct (zrun_more prog (zs ++ [znext L k zvs i zs])) as (l & -> & _). rewrite <- app_assoc, RL, app_nth2, Nat.sub_diag by lia. reflexivity. }
    assert (VB : forall j, (j < N / 2)%nat -> (cabs (kplain N zpts i ys j) <= vs (length bs))%R).
    { intros j Hj. rewrite V. unfold znext. rewrite <- RL. destruct (zvs (length bs)) as [v|] eqn:EV.
      - cbn [zmu]. specialize (HC (length bs) v j ltac:(cbn; lia) EV Hj). destruct (run_more N zpts prog (ys ++ [kplain N zpts i ys])) as (l & El & _). rewrite El in HC. rewrite <- app_assoc, <- WL, app_nth2, Nat.sub_diag in HC by lia. exact HC.
      - eapply Rle_trans; [apply CW; exact Hj|apply C2]. }
    assert (V0 : (0 <= vs (length bs))%R) by (eapply Rle_trans; [apply cabs_nonneg|apply (VB 0%nat NH)]).
    destruct (IH (bs ++ [tcost L cA cR cM cD pb vs i bs]) (zs ++ [znext L k zvs i zs]) (ys ++ [kplain N zpts i ys])) as (I1 & I2 & I3); trivial.
    - split; [rewrite !app_length; cbn; lia|]. intros a. destruct (Nat.lt_ge_cases a (length bs)) as [Hl|Hl]; [rewrite !app_nth1 by lia; apply RZ|]. rewrite !app_nth2 by lia. rewrite RL. destruct (a - length zs)%nat as [|q].
      + cbn [nth]. unfold tcost, zrel. cbn [bl bmu berr]. rewrite V. split; [|split].
        * rewrite C1. unfold znext. destruct (zvs (length zs)); reflexivity.
        * rewrite <- V. split; [exact V0|]. rewrite V. lra.
        * unfold znext. destruct (zvs (length zs)); exact C3.
      + cbn [nth]. destruct q; apply zrel0.
    - split; [rewrite !app_length; cbn; lia|]. intros a j Ha Hj. rewrite app_length in Ha. cbn in Ha. destruct (Nat.lt_ge_cases a (length bs)) as [Hl|Hl]; [rewrite !app_nth1 by lia; apply W; assumption|].
      rewrite !app_nth2 by lia. replace (a - length ys)%nat with 0%nat by lia. replace (a - length bs)%nat with 0%nat by lia. cbn [nth tcost bmu]. apply VB. exact Hj.
    - intros n Hn. rewrite app_length in Hn. cbn in Hn. apply HV. cbn. lia.
    - intros n v j Hn. rewrite app_length in Hn. cbn in Hn. apply HC. cbn. lia.
    - split; [split; [exact KO|exact I1]|]. split; [exact I2|exact I3].
  Qed.
End Sound.

(** ** C58: run the calculator, then trust its answer *)
Theorem C58_calculator : forall N pp ps B T K S eta e1 cA cF cR cM cD MN cap mu eps crs (rs : rlkset N) (rk : rotset N) (ck : conjset N) sks (pk : string -> publicKey N) (s r : string -> R N) (P : list string) rots
  (w : nat -> nat -> IdSetModel.order) (oe : nat -> list string -> list string) (o : IdSetModel.order) (pt : poly N) pts pb zpts (ins : list (kinput N)) (prog : list xinstr) st a k zvs (ms : list Z) e,
  wfp N pp -> knumbers N pp ps B T K S eta e1 cA cF cR cM cD MN cap -> small_ok pp B -> small_ok pp T ->
  (forall n m, order_ok (w n m)) -> (forall n, ord1_ok (oe n)) -> order_ok o -> pool_ok pp st ->
  (forall i, In i ([0; -1; -2] ++ rots) -> exists c, mget Z.eq_dec crs i = Some c /\ crs_ok pp c) ->
  mwf sks -> (forall id k, mget seq_dec sks id = Some k -> In id P) -> (length P <= K)%nat ->
  (forall id, In id P -> id <> id0 /\ kgenerated pp B T crs rs rk ck sks rots pk id (s id) (r id)) ->
  (0 <= mu)%R -> (0 <= eps)%R -> (forall x, In x ins -> In (ki_id x) P /\ exists M, kinput_ok pp ps B T M mu eps x) ->
  (forall p, (p < length pb)%nat -> (0 <= fst (nth p pb (0, 0)) /\ 0 <= snd (nth p pb (0, 0)))%R /\ exists x M, nth_error pts p = Some x /\ kplainreg pp x (KP ps M (fst (nth p pb (0, 0)%R)) (snd (nth p pb (0, 0)%R))) (nth p zpts zslots)) ->
  krots crs (xerase prog) rots -> xwell crs (length ins) nil prog ->
  (* the constants handed to the calculator are upper bounds *)
  (0 <= cA <= fromZ (zA k))%R -> (0 <= cR <= fromZ (zR k))%R -> (0 <= cM <= fromZ (zM k))%R -> (0 <= cD <= fromZ (zD k))%R -> (0 <= eps + cF <= fromZ e)%R ->
  length pb = length (zpb k) -> (forall p, (p < length pb)%nat -> (fst (nth p pb (0, 0)) <= fromZ (fst (nth p (zpb k) (0, 0)%Z)) /\ snd (nth p pb (0, 0)) <= fromZ (snd (nth p (zpb k) (0, 0)%Z)))%R) ->
  (* the messages are bounded by ms, the registers for which the client gave a bound are bounded by it *)
  length ms = length ins -> (forall n j, (n < length ins)%nat -> (j < N / 2)%nat -> (cabs (nth n (map ki_z ins) zslots j) <= fromZ (nth n ms 0%Z))%R) ->
  let zs := kplain_run N zpts (xerase prog) (map ki_z ins) in
  (forall n v j, (length ins <= n < length ins + length (xerase prog))%nat -> zvs n = Some v -> (j < N / 2)%nat -> (cabs (nth n zs zslots j) <= fromZ v)%R) ->
  (* the calculator accepts *)
  let L := maxLevel pp in let b := nth a (zrun L k zvs (xerase prog) (zfresh L ms e)) (ZB 0 0 0) in
  zok L k zvs (xerase prog) (zfresh L ms e) = true -> plevel pt = L -> (a < length ins + length (xerase prog))%nat -> (fromZ (zmu b + zerr b) <= cap (zl b))%R ->
  exists st' cs hs c p, xsession pp ps crs rs rk ck pts pk w oe ins prog st = Ok (st', cs, hs) /\ nth_error cs a = Some c /\ fpos (csc c) /\ Decrypt pp o (cv c) sks pt = Ok p /\ plevel p = zl b /\
    exists X, centred pp (zl b) (prows p) X /\ (forall Y, centred pp (zl b) (prows p) Y -> Y = X) /\
      forall j, (j < N / 2)%nat -> (cabs (csub (cscale (/ B2R (csc c)) (ckks_slot X j)) (nth a zs zslots j)) <= fromZ (zerr b))%R.
Proof.
  intros N pp ps B T K S eta e1 cA cF cR cM cD MN cap mu eps crs rs rk ck sks pk s r P rots w oe o pt pts pb zpts ins prog st a k zvs ms e WF NB SB ST O OE OD PO HC MW HSK HP HG Hmu Heps HI HPT HR XW
    HA HRc HM HD HE PL PB LM HMs zs HV L b OK PT Ha HCap.
  pose proof (proj1 (wf_N _ _ WF)) as N2. assert (NH : (0 < N / 2)%nat) by (apply Nat.div_str_pos; lia).
  set (R := zrun L k zvs (xerase prog) (zfresh L ms e)) in *. set (vs := fun n => fromZ (zmu (nth n R (ZB 0 0 0)))).
  destruct (zrun_more L k zvs (xerase prog) (zfresh L ms e)) as (l & ER & LR). fold R in ER.
  assert (FL : length (zfresh L ms e) = length ins) by (unfold zfresh; rewrite map_length; exact LM).
  assert (FN : forall n, (n < length ins)%nat -> nth n (zfresh L ms e) (ZB 0 0 0) = ZB L (nth n ms 0) e).
  { intros n Hn. unfold zfresh. set (g := fun m => ZB L m e). rewrite (nth_indep _ (ZB 0 0 0) (g 0)) by (rewrite map_length, LM; exact Hn). rewrite map_nth. reflexivity. }
  assert (VF : forall n, (n < length ins)%nat -> vs n = fromZ (nth n ms 0%Z)) by (intros n Hn; unfold vs; rewrite ER, app_nth1, FN by lia; reflexivity).
  set (bs := tfresh L vs (length ins) (eps + cF)).
  assert (BL : length bs = length ins) by (unfold bs, tfresh; rewrite map_length, seq_length; reflexivity).
  assert (BN : forall n, (n < length ins)%nat -> nth n bs (KB 0 0 0) = KB L (fromZ (nth n ms 0%Z)) (eps + cF)).
  { intros n Hn. unfold bs, tfresh. set (g := fun q => KB L (vs q) (eps + cF)). rewrite (nth_indep _ (KB 0 0 0) (g 0%nat)) by (rewrite map_length, seq_length; exact Hn). rewrite map_nth, seq_nth by exact Hn. unfold g. cbn [Nat.add]. rewrite VF by exact Hn. reflexivity. }
  assert (MP : forall n, (n < length ins)%nat -> (0 <= fromZ (nth n ms 0%Z))%R) by (intros n Hn; eapply Rle_trans; [apply cabs_nonneg|apply (HMs n 0%nat Hn NH)]).
  assert (RZ : zrels bs (zfresh L ms e)).
  { split; [rewrite BL, FL; reflexivity|]. intros n. destruct (Nat.lt_ge_cases n (length ins)) as [Hn|Hn].
    - rewrite BN, FN by exact Hn. unfold zrel. cbn [bl bmu berr zl zmu zerr]. split; [reflexivity|]. split; [|exact HE]. specialize (MP n Hn). lra.
    - rewrite !nth_overflow by lia. apply zrel0. }
  assert (WI : within N bs (map ki_z ins)).
  { split; [rewrite map_length, BL; reflexivity|]. intros n j Hn Hj. rewrite BL in Hn. rewrite BN by exact Hn. cbn [bmu]. apply HMs; assumption. }
  assert (HPB : forall p, (p < length pb)%nat -> (0 <= fst (nth p pb (0, 0)) <= fromZ (fst (nth p (zpb k) (0, 0)%Z)))%R /\ (0 <= snd (nth p pb (0, 0)) <= fromZ (snd (nth p (zpb k) (0, 0)%Z)))%R).
  { intros p Hp. destruct (HPT p Hp) as [[p0 p1] _]. destruct (PB p Hp) as [p2 p3]. split; split; assumption. }
  assert (HPZ : forall p j, (p < length pb)%nat -> (j < N / 2)%nat -> (cabs (nth p zpts zslots j) <= fst (nth p pb (0, 0)))%R).
  { intros p j Hp Hj. destruct (HPT p Hp) as (_ & x & M & _ & (_ & _ & _ & _ & X & _ & _ & NX)). apply (NX j Hj). }
  destruct (calc_sound L k zvs cA cR cM cD pb HA HRc HM HD PL HPB N zpts NH HPZ vs (xerase prog) bs (zfresh L ms e) (map ki_z ins) RZ WI) as (T1 & [T2 T2'] & T3 & T4); trivial.
  { intros n v j Hn. rewrite BL in Hn. apply HV. exact Hn. }
  fold R in T2, T2'. pose proof (T2' a) as (A1 & A2 & A3). fold b in A1, A2, A3.
  assert (TL : length (tcost_run L cA cR cM cD pb vs (xerase prog) bs) = (length ins + length (xerase prog))%nat) by (rewrite T2, ER, app_length, FL, LR; reflexivity).
  assert (TV : forall n, (n < length ins + length (xerase prog))%nat -> bmu (nth n (tcost_run L cA cR cM cD pb vs (xerase prog) bs) (KB 0 0 0)) = vs n).
  { assert (X : forall q bs0, (forall n, (n < length bs0)%nat -> bmu (nth n bs0 (KB 0 0 0)) = vs n) -> forall n, (n < length bs0 + length q)%nat -> bmu (nth n (tcost_run L cA cR cM cD pb vs q bs0) (KB 0 0 0)) = vs n).
    { clear. induction q as [|i q IH]; intros bs0 H n Hn; [apply H; cbn in Hn; lia|]. apply (IH (bs0 ++ [tcost L cA cR cM cD pb vs i bs0])); [|rewrite app_length; cbn in *; lia].
      intros m Hm. rewrite app_length in Hm. cbn in Hm. destruct (Nat.lt_ge_cases m (length bs0)) as [Hl|Hl]; [rewrite app_nth1 by exact Hl; apply H; exact Hl|]. rewrite app_nth2 by exact Hl. replace (m - length bs0)%nat with 0%nat by lia. cbn [nth tcost bmu]. f_equal. lia. }
    intros n Hn. apply X; [|rewrite BL; exact Hn]. intros m Hm. rewrite BL in Hm. rewrite BN, VF by exact Hm. reflexivity. }
  destruct (C58_rule N pp ps B T K S eta e1 cA cF cR cM cD MN cap mu eps crs rs rk ck sks pk s r P rots w oe o pt pts pb zpts ins prog st a vs) as (st' & cs & hs & c & p & X1 & X2 & X3 & X4 & X5 & X & X6 & X7 & X8); trivial.
  - intros n j Hn Hj. rewrite <- TV by exact Hn. apply T4; [fold L bs; rewrite TL; exact Hn|exact Hj].
  - fold L bs. rewrite A1. eapply Rle_trans; [|exact HCap]. rewrite fromZ_add. change (vs a) with (fromZ (zmu b)). apply Rplus_le_compat_l. apply A3.
  - fold L bs in X5, X6, X7, X8. rewrite A1 in X5, X6, X7. exists st', cs, hs, c, p. split; [exact X1|]. split; [exact X2|]. split; [exact X3|]. split; [exact X4|]. split; [exact X5|]. exists X. split; [exact X6|]. split; [exact X7|].
    intros j Hj. eapply Rle_trans; [apply X8; exact Hj|apply A3].
Qed.
Print Assumptions C58_calculator.
