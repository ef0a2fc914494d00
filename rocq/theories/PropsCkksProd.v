(** C67: product circuits with the shipped CKKS parameter sets. *)
From Flocq Require Import Core BinarySingleNaN.
From Coq Require Import Znumtheory Setoid Morphisms Reals Lra.
From Verif Require Import Base IdSetModel KeySetModel NumTheory Negacyclic Ntt Word BasisExt BasisExtProofs DecompProofs BasisSpec Rows RlweModel KeyGenModel SchemeSpec ExtProd ExtProps Galois KeyGenProofs CtModel CtSpec CtProofs EncDecProofs EncMsgModel KeySwitchModel Digits KsLoops RotProofs ConjProofs MulProofs PropsEnc PropsKeySwitch PropsRotate FloatModel CkksFloat CkksModel FloatProofs CkksFloatProofs CkksProofs CkksRescale PropsCkks PropsRescale Slots PropsSlots CkksSlots CkksCircuit PropsCkksCircuit PropsCkksScale PropsIndex Shipped BfvModel BfvConv PropsBfvCircuit Instance BfvCross PropsShipped CkksBudget SlotNorm SlotEncode PropsCkksShipped.
Open Scope Z_scope.

(** ** Specification: a product circuit is a list of pairs of earlier results to be multiplied *)
Definition circuit := list (nat * nat).
(** multiplicative depths of all results, the inputs (depth 0) first *)
Definition depths (n : nat) (cir : circuit) : list nat :=
  fold_left (fun ds ij => ds ++ [S (Nat.max (nth (fst ij) ds 0) (nth (snd ij) ds 0))])%nat cir (repeat 0 n)%nat.
(** both factors of every product come earlier, and no depth exceeds L *)
Fixpoint earlier (n : nat) (cir : circuit) : Prop :=
  match cir with nil => True | ij :: cir => (fst ij < n)%nat /\ (snd ij < n)%nat /\ earlier (S n) cir end.
Definition circuit_ok (L n : nat) (cir : circuit) : Prop := earlier n cir /\ forall d, In d (depths n cir) -> (d <= L)%nat.
(** the exact values, slot by slot *)
Definition products (zs : list slots) (cir : circuit) : list slots :=
  fold_left (fun zs ij => zs ++ [fun j => cmul (nth (fst ij) zs zslots j) (nth (snd ij) zs zslots j)]) cir zs.
(** MulRelinNew for every pair *)
Definition prodprog (cir : circuit) : list kinstr := map (fun ij => KMul (fst ij) (snd ij)) cir.

(** ** The error after d levels, in units of 2^-40 *)
Definition nextErr (G : Z) : Z := 2 * G + G * G / 2 ^ 40 + 2 + 4259840.
Fixpoint errAt (d : nat) : Z := match d with O => 4194308 | S d => nextErr (errAt d) end.
Definition eR (d : nat) : RR := (IZR (errAt d) / IZR (2 ^ 40))%R.
Lemma err_numbers : forallb (fun d => (errAt d <=? 2 ^ (Z.of_nat d + 24)) && (errAt d <=? 2 ^ 38)) (seq 0 14) = true.
Proof. vm_compute. reflexivity. Qed.
Lemma err_pos d : 0 <= errAt d.
Proof. induction d; cbn [errAt]; [lia|]. unfold nextErr. assert (0 <= errAt d * errAt d / 2 ^ 40) by (apply Z.div_pos; nia). lia. Qed.
Lemma err_mono d d' : (d <= d')%nat -> errAt d <= errAt d'.
Proof.
  induction 1; [lia|]. cbn [errAt]. unfold nextErr. pose proof (err_pos m). assert (0 <= errAt m * errAt m / 2 ^ 40) by (apply Z.div_pos; nia). lia.
Qed.
Lemma err_le d : (d <= 13)%nat -> errAt d <= 2 ^ (Z.of_nat d + 24) /\ errAt d <= 2 ^ 38.
Proof.
  intros H. pose proof err_numbers as E. rewrite forallb_forall in E. specialize (E d ltac:(apply in_seq; lia)). apply andb_true_iff in E. lia.
Qed.
Open Scope R_scope.
Lemma eR_mono d d' : (d <= d')%nat -> 0 <= eR d <= eR d'.
Proof.
  intros H. assert (P : 0 < IZR (2 ^ 40)) by (apply IZR_lt; reflexivity). unfold eR. split.
  - apply Rmult_le_pos; [apply IZR_le, err_pos|apply Rlt_le, Rinv_0_lt_compat; exact P].
  - apply Rmult_le_compat_r; [apply Rlt_le, Rinv_0_lt_compat; exact P|]. apply IZR_le, err_mono. exact H.
Qed.
Lemma eR_le d : (d <= 13)%nat -> eR d <= IZR (2 ^ Z.of_nat d) * half_pow 16 /\ eR d <= / 4.
Proof.
  intros H. destruct (err_le d H) as [A B]. assert (P : 0 < IZR (2 ^ 40)) by (apply IZR_lt; reflexivity). unfold eR, half_pow. split.
  - apply (Rmult_le_reg_r (IZR (2 ^ 40))); [exact P|]. unfold Rdiv. rewrite Rmult_assoc, Rinv_l, Rmult_1_r by lra.
    apply IZR_le in A. rewrite Z.pow_add_r in A by lia. rewrite mult_IZR in A.
    replace (IZR (2 ^ Z.of_nat d) * / IZR (2 ^ 16) * IZR (2 ^ 40)) with (IZR (2 ^ Z.of_nat d) * IZR (2 ^ 24)); [exact A|].
    change (2 ^ 40)%Z with (2 ^ 24 * 2 ^ 16)%Z. rewrite mult_IZR. field. apply not_0_IZR. discriminate.
  - apply (Rmult_le_reg_r (IZR (2 ^ 40))); [exact P|]. unfold Rdiv. rewrite Rmult_assoc, Rinv_l, Rmult_1_r by lra.
    apply IZR_le in B. eapply Rle_trans; [exact B|]. change (2 ^ 40)%Z with (4 * 2 ^ 38)%Z. rewrite mult_IZR. lra.
Qed.
Lemma eR_step d cM cD : (d <= 13)%nat -> 0 <= cM <= 4259840 / IZR (2 ^ 40) -> 0 <= cD <= half_pow 48 ->
  let g := eR d in 2 * g + g * g + cD * (1 + (2 * g + g * g)) + cM <= eR (S d).
Proof.
  intros H CM CD g. destruct (eR_le d H) as [_ L]. destruct (eR_mono d d (le_n _)) as [G0 _]. fold g in L, G0.
  assert (P : 0 < IZR (2 ^ 40)) by (apply IZR_lt; reflexivity).
  assert (GG : g * g <= / 16) by nra.
  assert (CD2 : cD * (1 + (2 * g + g * g)) <= / IZR (2 ^ 40)).
  { apply Rle_trans with (half_pow 48 * 2); [apply Rmult_le_compat; try lra; nra|]. reals. lra. }
  assert (X : 2 * g + g * g + 4259841 / IZR (2 ^ 40) <= eR (S d)).
  { unfold eR at 1. cbn [errAt]. unfold nextErr. set (G := errAt d) in *.
    assert (FL : IZR (G * G) / IZR (2 ^ 40) <= IZR (G * G / 2 ^ 40) + 1).
    { pose proof (Z.div_mod (G * G) (2 ^ 40) ltac:(discriminate)) as DM. pose proof (Z.mod_pos_bound (G * G) (2 ^ 40) eq_refl) as MB.
      apply (Rmult_le_reg_r (IZR (2 ^ 40))); [exact P|]. unfold Rdiv. rewrite Rmult_assoc, Rinv_l, Rmult_1_r by lra.
      rewrite <- plus_IZR, <- mult_IZR. apply IZR_le. lia. }
    assert (EG : g * g = IZR (G * G) / IZR (2 ^ 40) / IZR (2 ^ 40)) by (unfold g, eR; fold G; rewrite mult_IZR; field; lra).
    rewrite EG. unfold g, eR. fold G. set (W := IZR (2 ^ 40)) in *.
    rewrite !plus_IZR, (mult_IZR 2 G).
    replace (2 * (IZR G / W) + IZR (G * G) / W / W + 4259841 / W) with ((2 * IZR G + IZR (G * G) / W + 4259841) / W) by (field; lra).
    apply Rmult_le_compat_r; [apply Rlt_le, Rinv_0_lt_compat; exact P|]. lra. }
  replace (4259841 / IZR (2 ^ 40)) with (4259840 / IZR (2 ^ 40) + / IZR (2 ^ 40)) in X by (field; lra). lra.
Qed.
Close Scope R_scope.

(** ** The rule of C52 on product circuits *)
Section Run.
  Variables (L : nat) (cA cR cM cD : RR) (pb : list (RR * RR)).
  Hypothesis HL : (L <= 13)%nat.
  Hypothesis HM : (0 <= cM <= 4259840 / IZR (2 ^ 40))%R.
  Hypothesis HD : (0 <= cD <= half_pow 48)%R.
  Notation cost := (kcost L cA cR cM cD pb).

  Definition at_depth (d : nat) (b : kb) : Prop := bl b = (L - d)%nat /\ (0 <= bmu b <= 1)%R /\ (0 <= berr b <= eR d)%R.
  Lemma mul_depth d0 d1 b0 b1 : (d0 < L)%nat -> (d1 < L)%nat -> at_depth d0 b0 -> at_depth d1 b1 ->
    at_depth (S (Nat.max d0 d1)) (prule cM cD (Nat.min (bl b0) (bl b1)) (bmu b0) (berr b0) (bmu b1) (berr b1)).
  Proof using HL HM HD.
    intros D0 D1 (E0 & M0 & R0) (E1 & M1 & R1). unfold prule, at_depth. cbn [bl bmu berr]. split; [rewrite E0, E1; lia|].
    set (d := Nat.max d0 d1). assert (A0 : (eR d0 <= eR d)%R) by (apply eR_mono; unfold d; lia). assert (A1 : (eR d1 <= eR d)%R) by (apply eR_mono; unfold d; lia).
    pose proof (eR_step d cM cD ltac:(unfold d; lia) HM HD) as ST. cbv zeta in ST. set (g := eR d) in *.
    set (m0 := bmu b0) in *. set (m1 := bmu b1) in *. set (x0 := berr b0) in *. set (x1 := berr b1) in *. clearbody g m0 m1 x0 x1.
    assert (P0 : (0 <= m0 * m1 <= 1)%R) by (split; [apply Rmult_le_pos; lra|rewrite <- (Rmult_1_r 1); apply Rmult_le_compat; lra]).
    assert (P1 : (0 <= m0 * x1 <= g)%R) by (split; [apply Rmult_le_pos; lra|rewrite <- (Rmult_1_l g); apply Rmult_le_compat; lra]).
    assert (P2 : (0 <= m1 * x0 <= g)%R) by (split; [apply Rmult_le_pos; lra|rewrite <- (Rmult_1_l g); apply Rmult_le_compat; lra]).
    assert (P3 : (0 <= x0 * x1 <= g * g)%R) by (split; [apply Rmult_le_pos; lra|apply Rmult_le_compat; lra]).
    split; [lra|]. assert (P4 : (0 <= cD * (m0 * m1 + (m0 * x1 + m1 * x0 + x0 * x1)) <= cD * (1 + (2 * g + g * g)))%R).
    { split; [apply Rmult_le_pos; lra|apply Rmult_le_compat_l; lra]. }
    lra.
  Qed.
  Lemma run_depth cir : forall n ds bs, length ds = n -> length bs = n -> earlier n cir ->
    (forall d, In d (fold_left (fun ds ij => ds ++ [S (Nat.max (nth (fst ij) ds 0) (nth (snd ij) ds 0))])%nat cir ds) -> (d <= L)%nat) ->
    (forall a, (a < n)%nat -> at_depth (nth a ds 0%nat) (nth a bs (KB 0 0 0))) ->
    kokrun L cA cR cM cD pb (prodprog cir) bs /\
    forall a, (a < n + length cir)%nat -> at_depth (nth a (fold_left (fun ds ij => ds ++ [S (Nat.max (nth (fst ij) ds 0) (nth (snd ij) ds 0))])%nat cir ds) 0%nat) (nth a (kcost_run L cA cR cM cD pb (prodprog cir) bs) (KB 0 0 0)).
  Proof using HL HM HD.
    induction cir as [|[i j] cir IH]; intros n ds bs LD LB EA DL INV.
    - cbn. split; [exact Logic.I|]. intros a Ha. apply INV. lia.
    - destruct EA as (I1 & J1 & EA). cbn [fst snd] in I1, J1.
      set (step := fun ds ij => ds ++ [S (Nat.max (nth (fst ij) ds 0) (nth (snd ij) ds 0))]%nat) in *.
      cbn [fold_left] in DL. set (d := S (Nat.max (nth i ds 0) (nth j ds 0))%nat). assert (SD : step ds (i, j) = ds ++ [d]) by reflexivity.
      assert (KEEP : forall c (l : list nat) x, In x l -> In x (fold_left step c l)).
      { intros c. induction c as [|y c IHc]; intros l x Hx; [exact Hx|]. cbn [fold_left]. apply IHc. unfold step. apply in_or_app. left. exact Hx. }
      assert (DD : (d <= L)%nat). { apply DL. apply KEEP. rewrite SD. apply in_or_app. right. left. reflexivity. }
      pose proof (INV i I1) as Ii. pose proof (INV j J1) as Ij.
      assert (NEW : at_depth d (cost (KMul i j) bs)) by (cbn [kcost]; apply mul_depth; try assumption; unfold d in DD; lia).
      destruct (IH (S n) (ds ++ [d]) (bs ++ [cost (KMul i j) bs])) as [K1 K2].
      + rewrite app_length. cbn. lia.
      + rewrite app_length. cbn. lia.
      + exact EA.
      + intros x Hx. apply DL. rewrite SD. exact Hx.
      + intros a Ha. destruct (Nat.eq_dec a n) as [->|NE].
        * rewrite app_nth2, LD, Nat.sub_diag by lia. rewrite app_nth2, LB, Nat.sub_diag by lia. exact NEW.
        * rewrite !app_nth1 by lia. apply INV. lia.
      + split.
        * cbn [prodprog map kokrun fst snd]. split; [|exact K1]. cbn [kokb]. destruct Ii as (Ei & _), Ij as (Ej & _). rewrite Ei, Ej. unfold d in DD. lia.
        * intros a Ha. cbn [fold_left]. rewrite SD. unfold kcost_run. cbn [prodprog map fold_left fst snd]. apply K2. cbn [length] in Ha. lia.
  Qed.
End Run.
Lemma prod_plain N zpts cir : forall zs, kplain_run N zpts (prodprog cir) zs = products zs cir.
Proof. induction cir as [|ij cir IH]; intros zs; [reflexivity|]. unfold kplain_run, products. cbn [prodprog map fold_left kplain]. apply IH. Qed.
Lemma depth_nth_le L n cir a : circuit_ok L n cir -> (nth a (depths n cir) 0 <= L)%nat.
Proof. intros [_ H]. destruct (Nat.lt_ge_cases a (length (depths n cir))) as [A|A]; [apply H, nth_In; exact A|rewrite nth_overflow by exact A; lia]. Qed.

Lemma nth_const {A B} (v : B) (l : list A) b d : (b < length l)%nat -> nth b (map (fun _ => v) l) d = v.
Proof. revert b. induction l as [|x l IH]; intros [|b] H; cbn in *; try lia; [reflexivity|]. apply IH. lia. Qed.

(** ** C67 *)
(** ckks15 (scale 2^54): inputs in the unit disc from at most 64 parties; every result of depth d, decrypted, is within 2^(d-16) of the exact product in every slot *)
Theorem C67_ckks15 : forall (u : Z -> nat -> polyQP N15) (rs : rlkset N15) (rk : rotset N15) (ck : conjset N15) sks (pk : string -> publicKey N15) (s r : string -> R N15) (P : list string)
  (w : nat -> nat -> IdSetModel.order) (oe : nat -> list string -> list string) (o : IdSetModel.order) (pt : poly N15) (ins : list (kinput N15)) (cir : circuit) st a,
  (forall i j, (j < 14)%nat -> wordsQP ckks15 (u i j)) -> let crs := NewCRS ckks15 15 u in let scale := f_of_int (2 ^ 54) in
  (forall n m, order_ok (w n m)) -> (forall n, ord1_ok (oe n)) -> order_ok o -> pool_ok ckks15 st -> plevel pt = 13%nat ->
  mwf sks -> (forall id k, mget seq_dec sks id = Some k -> In id P) -> (1 <= length P <= 64)%nat ->
  (forall id, In id P -> id <> id0 /\ kgenerated ckks15 19 1 crs rs rk ck sks (defaults 15) pk id (s id) (r id)) ->
  (forall x, In x ins -> In (ki_id x) P /\ exists M, kinput_ok ckks15 scale 19 1 M 1 (half_pow 38) x) ->
  circuit_ok 13 (length ins) cir -> (a < length ins + length cir)%nat ->
  let d := nth a (depths (length ins) cir) 0%nat in
  exists st' cs c p, ksession ckks15 scale crs rs rk ck nil pk w oe ins (prodprog cir) st = Ok (st', cs) /\ nth_error cs a = Some c /\ fpos (csc c) /\ Decrypt ckks15 o (cv c) sks pt = Ok p /\ plevel p = (13 - d)%nat /\
    exists X, centred ckks15 (13 - d) (prows p) X /\ (forall Y, centred ckks15 (13 - d) (prows p) Y -> Y = X) /\
      forall j, (j < N15 / 2)%nat -> (cabs (csub (cscale (/ B2R (csc c)) (ckks_slot X j)) (nth a (products (map ki_z ins) cir) zslots j)) <= IZR (2 ^ Z.of_nat d) * half_pow 16)%R.
Proof.
  intros u rs rk ck sks pk s r P w oe o pt ins cir st a HU crs scale O OE OD PO PL MW HSK HK HG HI CO Ha d.
  assert (KK : (1 <= INR (length P) <= 64)%R). { split; [change 1%R with (INR 1); apply le_INR; lia|replace 64%R with (INR 64) by (cbn; ring); apply le_INR; lia]. }
  set (bs := map (fun _ : kinput N15 => KB 13 1 (half_pow 38 + half_pow 18)) ins).
  assert (E0 : (0 <= half_pow 38 + half_pow 18 <= eR 0)%R). { unfold eR. cbn [errAt]. change (2 ^ 40)%Z with 1099511627776%Z. unfold half_pow. change (2 ^ 38) with 274877906944. change (2 ^ 18) with 262144. lra. }
  destruct (run_depth 13 (half_pow 27) (INR (length P) * half_pow 20) ((INR (length P) + 1) * half_pow 24) (half_pow 48) nil ltac:(lia)) with (cir := cir) (n := length ins) (ds := repeat 0%nat (length ins)) (bs := bs) as [OKR INV].
  { change (2 ^ 40)%Z with 1099511627776%Z. reals. split; [apply Rmult_le_pos; lra|]. lra. }
  { reals. lra. } { apply repeat_length. } { unfold bs. apply map_length. } { apply CO. } { apply CO. }
  { intros b Hb. rewrite nth_repeat. unfold bs. rewrite nth_const by exact Hb. unfold at_depth. cbn [bl bmu berr]. split; [lia|]. split; [lra|exact E0]. }
  fold (depths (length ins) cir) in INV. specialize (INV a Ha). fold d in INV. destruct INV as (BL & BM & BE).
  match type of BL with bl ?x = _ => set (b := x) in * end.
  assert (DL : (d <= 13)%nat) by (apply depth_nth_le; exact CO). destruct (eR_le d DL) as [EL1 EL2].
  destruct (C52_ckks15 u rs rk ck sks pk s r P w oe o pt nil nil nil 1 (half_pow 38) ins (prodprog cir) st a HU O OE OD PO PL MW HSK HK HG) as (st' & cs & c & p & S1 & S2 & S3 & S4 & S5 & X & X1 & X2 & X3); trivial.
  { lra. } { unfold half_pow. change (2 ^ 38) with 274877906944. lra. } { intros q Hq. cbn in Hq. lia. }
  { unfold prodprog. rewrite map_length. exact Ha. }
  { fold bs. fold b. assert (B1 : (bmu b + berr b <= 2)%R) by lra. eapply Rle_trans; [exact B1|]. destruct (bl b =? 0)%nat; apply IZR_le; lia. }
  fold bs in S5, X1, X2, X3. fold b in S5, X1, X2, X3. rewrite BL in S5, X1, X2.
  exists st', cs, c, p. split; [exact S1|]. split; [exact S2|]. split; [exact S3|]. split; [exact S4|]. split; [exact S5|]. exists X. split; [exact X1|]. split; [exact X2|].
  intros j Hj. specialize (X3 j Hj). rewrite prod_plain in X3. lra.
Qed.

(** ckks14 (scale 2^52): inputs in the unit disc from at most 64 parties; every result of depth d, decrypted, is within 2^(d-16) of the exact product in every slot *)
Theorem C67_ckks14 : forall (u : Z -> nat -> polyQP N14) (rs : rlkset N14) (rk : rotset N14) (ck : conjset N14) sks (pk : string -> publicKey N14) (s r : string -> R N14) (P : list string)
  (w : nat -> nat -> IdSetModel.order) (oe : nat -> list string -> list string) (o : IdSetModel.order) (pt : poly N14) (ins : list (kinput N14)) (cir : circuit) st a,
  (forall i j, (j < 6)%nat -> wordsQP ckks14 (u i j)) -> let crs := NewCRS ckks14 14 u in let scale := f_of_int (2 ^ 52) in
  (forall n m, order_ok (w n m)) -> (forall n, ord1_ok (oe n)) -> order_ok o -> pool_ok ckks14 st -> plevel pt = 5%nat ->
  mwf sks -> (forall id k, mget seq_dec sks id = Some k -> In id P) -> (1 <= length P <= 64)%nat ->
  (forall id, In id P -> id <> id0 /\ kgenerated ckks14 19 1 crs rs rk ck sks (defaults 14) pk id (s id) (r id)) ->
  (forall x, In x ins -> In (ki_id x) P /\ exists M, kinput_ok ckks14 scale 19 1 M 1 (half_pow 38) x) ->
  circuit_ok 5 (length ins) cir -> (a < length ins + length cir)%nat ->
  let d := nth a (depths (length ins) cir) 0%nat in
  exists st' cs c p, ksession ckks14 scale crs rs rk ck nil pk w oe ins (prodprog cir) st = Ok (st', cs) /\ nth_error cs a = Some c /\ fpos (csc c) /\ Decrypt ckks14 o (cv c) sks pt = Ok p /\ plevel p = (5 - d)%nat /\
    exists X, centred ckks14 (5 - d) (prows p) X /\ (forall Y, centred ckks14 (5 - d) (prows p) Y -> Y = X) /\
      forall j, (j < N14 / 2)%nat -> (cabs (csub (cscale (/ B2R (csc c)) (ckks_slot X j)) (nth a (products (map ki_z ins) cir) zslots j)) <= IZR (2 ^ Z.of_nat d) * half_pow 16)%R.
Proof.
  intros u rs rk ck sks pk s r P w oe o pt ins cir st a HU crs scale O OE OD PO PL MW HSK HK HG HI CO Ha d.
  assert (KK : (1 <= INR (length P) <= 64)%R). { split; [change 1%R with (INR 1); apply le_INR; lia|replace 64%R with (INR 64) by (cbn; ring); apply le_INR; lia]. }
  set (bs := map (fun _ : kinput N14 => KB 5 1 (half_pow 38 + half_pow 18)) ins).
  assert (E0 : (0 <= half_pow 38 + half_pow 18 <= eR 0)%R). { unfold eR. cbn [errAt]. change (2 ^ 40)%Z with 1099511627776%Z. unfold half_pow. change (2 ^ 38) with 274877906944. change (2 ^ 18) with 262144. lra. }
  destruct (run_depth 5 (half_pow 27) (INR (length P) * half_pow 20) (INR (length P) * half_pow 24) (half_pow 48) nil ltac:(lia)) with (cir := cir) (n := length ins) (ds := repeat 0%nat (length ins)) (bs := bs) as [OKR INV].
  { change (2 ^ 40)%Z with 1099511627776%Z. reals. split; [apply Rmult_le_pos; lra|]. lra. }
  { reals. lra. } { apply repeat_length. } { unfold bs. apply map_length. } { apply CO. } { apply CO. }
  { intros b Hb. rewrite nth_repeat. unfold bs. rewrite nth_const by exact Hb. unfold at_depth. cbn [bl bmu berr]. split; [lia|]. split; [lra|exact E0]. }
  fold (depths (length ins) cir) in INV. specialize (INV a Ha). fold d in INV. destruct INV as (BL & BM & BE).
  match type of BL with bl ?x = _ => set (b := x) in * end.
  assert (DL : (d <= 5)%nat) by (apply depth_nth_le; exact CO). destruct (eR_le d ltac:(lia)) as [EL1 EL2].
  destruct (C52_ckks14 u rs rk ck sks pk s r P w oe o pt nil nil nil 1 (half_pow 38) ins (prodprog cir) st a HU O OE OD PO PL MW HSK HK HG) as (st' & cs & c & p & S1 & S2 & S3 & S4 & S5 & X & X1 & X2 & X3); trivial.
  { lra. } { unfold half_pow. change (2 ^ 38) with 274877906944. lra. } { intros q Hq. cbn in Hq. lia. }
  { unfold prodprog. rewrite map_length. exact Ha. }
  { fold bs. fold b. assert (B1 : (bmu b + berr b <= 2)%R) by lra. eapply Rle_trans; [exact B1|]. destruct (bl b =? 0)%nat; apply IZR_le; lia. }
  fold bs in S5, X1, X2, X3. fold b in S5, X1, X2, X3. rewrite BL in S5, X1, X2.
  exists st', cs, c, p. split; [exact S1|]. split; [exact S2|]. split; [exact S3|]. split; [exact S4|]. split; [exact S5|]. exists X. split; [exact X1|]. split; [exact X2|].
  intros j Hj. specialize (X3 j Hj). rewrite prod_plain in X3. lra.
Qed.

(** ** Iterated squaring: result number n is the 2^n-th power, at depth n *)
Definition squares (n : nat) : circuit := map (fun i => (i, i)) (seq 0 n).
Fixpoint sqpow (n : nat) (z : CC) : CC := match n with O => z | S n => cmul (sqpow n z) (sqpow n z) end.
Lemma squares_S n : squares (S n) = squares n ++ [(n, n)].
Proof. unfold squares. rewrite seq_S, map_app. reflexivity. Qed.
Lemma squares_depths n : depths 1 (squares n) = seq 0 (S n).
Proof.
  induction n as [|n IH]; [reflexivity|]. rewrite squares_S. unfold depths in *. rewrite fold_left_app, IH. cbn [fold_left fst snd]. rewrite (seq_S (S n)). f_equal. f_equal.
  rewrite seq_nth by lia. lia.
Qed.
Lemma squares_earlier n : circuit_ok n 1 (squares n).
Proof.
  split.
  - assert (G : forall k m, (k < m)%nat -> earlier m (map (fun i => (i, i)) (seq k n))).
    { induction n as [|n IH]; intros k m H; [exact Logic.I|]. cbn. split; [exact H|]. split; [exact H|]. apply IH. lia. }
    apply G. lia.
  - intros d Hd. rewrite squares_depths in Hd. apply in_seq in Hd. lia.
Qed.
Lemma squares_products n z : length (products [z] (squares n)) = S n /\ forall k, (k <= n)%nat -> nth k (products [z] (squares n)) zslots = fun j => sqpow k (z j).
Proof.
  induction n as [|n [IL IH]].
  - split; [reflexivity|]. intros k Hk. assert (k = 0)%nat as -> by lia. reflexivity.
  - rewrite squares_S. unfold products in *. rewrite fold_left_app. cbn [fold_left fst snd]. split; [rewrite app_length, IL; cbn; lia|].
    intros k Hk. destruct (Nat.eq_dec k (S n)) as [->|NE].
    + rewrite app_nth2, IL, Nat.sub_diag by lia. cbn [nth]. rewrite (IH n) by lia. reflexivity.
    + rewrite app_nth1 by lia. apply IH. lia.
Qed.
Corollary C67_squarings : forall (u : Z -> nat -> polyQP N15) (rs : rlkset N15) (rk : rotset N15) (ck : conjset N15) sks (pk : string -> publicKey N15) (s r : string -> R N15) (P : list string)
  (w : nat -> nat -> IdSetModel.order) (oe : nat -> list string -> list string) (o : IdSetModel.order) (pt : poly N15) (x : kinput N15) st n,
  (forall i j, (j < 14)%nat -> wordsQP ckks15 (u i j)) -> let crs := NewCRS ckks15 15 u in let scale := f_of_int (2 ^ 54) in
  (forall n m, order_ok (w n m)) -> (forall n, ord1_ok (oe n)) -> order_ok o -> pool_ok ckks15 st -> plevel pt = 13%nat ->
  mwf sks -> (forall id k, mget seq_dec sks id = Some k -> In id P) -> (1 <= length P <= 64)%nat ->
  (forall id, In id P -> id <> id0 /\ kgenerated ckks15 19 1 crs rs rk ck sks (defaults 15) pk id (s id) (r id)) ->
  In (ki_id x) P -> (exists M, kinput_ok ckks15 scale 19 1 M 1 (half_pow 38) x) -> (n <= 13)%nat ->
  exists st' cs c p, ksession ckks15 scale crs rs rk ck nil pk w oe [x] (prodprog (squares n)) st = Ok (st', cs) /\ nth_error cs n = Some c /\ fpos (csc c) /\ Decrypt ckks15 o (cv c) sks pt = Ok p /\ plevel p = (13 - n)%nat /\
    exists X, centred ckks15 (13 - n) (prows p) X /\ (forall Y, centred ckks15 (13 - n) (prows p) Y -> Y = X) /\
      forall j, (j < N15 / 2)%nat -> (cabs (csub (cscale (/ B2R (csc c)) (ckks_slot X j)) (sqpow n (ki_z x j))) <= IZR (2 ^ Z.of_nat n) * half_pow 16)%R.
Proof.
  intros u rs rk ck sks pk s r P w oe o pt x st n HU crs scale O OE OD PO PL MW HSK HK HG HP HX Hn.
  assert (CO : circuit_ok 13 1 (squares n)). { destruct (squares_earlier n) as [A B]. split; [exact A|]. intros d Hd. specialize (B d Hd). lia. }
  assert (LS : length (squares n) = n) by (unfold squares; rewrite map_length, seq_length; reflexivity).
  pose proof (C67_ckks15 u rs rk ck sks pk s r P w oe o pt [x] (squares n) st n HU O OE OD PO PL MW HSK HK HG) as X. cbv zeta in X.
  change (length [x]) with 1%nat in X. change (map ki_z [x]) with [ki_z x] in X. rewrite squares_depths in X. rewrite seq_nth in X by lia. rewrite (proj2 (squares_products n (ki_z x)) n (le_n n)) in X.
  apply X; [|exact CO|lia]. intros y [<-|[]]. split; assumption.
Qed.

(** ** Non-vacuity: for all parties, ternary secrets and errors up to 19 keys exist, every message in the unit disc has an input record; thirteen squarings and a tree over four parties are circuits of the theorem *)
Lemma encoded_mono {N} pp sc M mu e e' z (pt : poly N) : (e <= e')%R -> kencoded pp sc M mu e z pt -> kencoded pp sc M mu e' z pt.
Proof.
  intros H (A & B & X & C & D & E). split; [exact A|]. split; [exact B|]. exists X. split; [exact C|]. split; [exact D|]. intros j Hj. destruct (E j Hj). split; [lra|assumption].
Qed.
Theorem C67_nonvacuous : forall (u : Z -> nat -> polyQP N15) (P : list string) (s r e : string -> R N15), (forall i j, (j < 14)%nat -> wordsQP ckks15 (u i j)) ->
  (forall id, bnd (s id) 1) -> (forall id, bnd (r id) 1) -> (forall id, bnd (e id) 19) -> let scale := f_of_int (2 ^ 54) in
  (exists (rs : rlkset N15) (rk : rotset N15) (ck : conjset N15) sks pk, mwf sks /\ (forall id k, mget seq_dec sks id = Some k -> In id P) /\
    forall id, In id P -> kgenerated ckks15 19 1 (NewCRS ckks15 15 u) rs rk ck sks (defaults 15) pk id (s id) (r id)) /\
  pool_ok ckks15 (NewEvaluator ckks15 : evalst N15) /\
  (forall id z, (forall j, (j < N15 / 2)%nat -> (cabs (z j) <= 1)%R) -> exists M (x : kinput N15), ki_id x = id /\ ki_z x = z /\ kinput_ok ckks15 scale 19 1 M 1 (half_pow 38) x) /\
  circuit_ok 13 1 (squares 13) /\ circuit_ok 13 4 [(0, 1); (2, 3); (4, 5); (6, 0)]%nat /\ nth 7 (depths 4 [(0, 1); (2, 3); (4, 5); (6, 0)]%nat) 0%nat = 3%nat.
Proof.
  intros u P s r e HU Hs Hr He scale. destruct (C52_nonvacuous u P s r e HU Hs Hr He) as (A & B & C & _). split; [exact A|]. split; [exact B|]. split; [|split; [|split]].
  - intros id z HZ. destruct (C id z 1%R HZ) as (M & x & E1 & E2 & E3 & E4). exists M, x. split; [exact E1|]. split; [exact E2|]. split; [|exact E4].
    eapply encoded_mono; [|exact E3]. unfold half_pow. assert (NE : INR (N15 / 2) = IZR (2 ^ 14)). { rewrite INR_IZR_INZ. apply (f_equal IZR). rewrite div_Zdiv by lia. rewrite N15_Z. reflexivity. }
    rewrite NE. change (2 ^ 14) with 16384. change (2 ^ 54) with 18014398509481984. change (2 ^ 38) with 274877906944. lra.
  - apply squares_earlier.
  - split; [cbn; repeat split; lia|]. cbn. intros d H. repeat (destruct H as [<-|H]; [lia|]). destruct H.
  - reflexivity.
Qed.
