(** C58: more about the precision rule with the client's own bounds of the values: the rule of C52 / C57 is the special case of worst-case bounds, and better bounds never give larger errors. *)
From Flocq Require Import Core BinarySingleNaN.
From Coq Require Import Znumtheory Setoid Morphisms Reals Lra.
From Verif Require Import Base IdSetModel KeySetModel NumTheory Negacyclic Ntt Word BasisExt Rows RlweModel KeyGenModel CtModel CtSpec CtProofs EncMsgModel KeySwitchModel RotProofs PropsRotate FloatModel CkksFloat CkksModel CkksProofs Slots PropsSlots CkksSlots CkksCircuit PropsCkksCircuit PropsCkksScale Shipped CkksBudget CkksHoist PropsCkksShipped CkksTight.
Open Scope Z_scope.

(** ** the worst case is a bound *)
Section Worst.
  Variables (N L : nat) (cA cR cM cD : RR) (pb : list (RR * RR)) (zpts : list slots).
  Hypothesis NH : (0 < N / 2)%nat.
  Hypothesis HP : forall p j, (p < length pb)%nat -> (j < N / 2)%nat -> (cabs (nth p zpts zslots j) <= fst (nth p pb (0, 0)))%R.
  Definition within (bs : list kb) (zs : list slots) : Prop := length zs = length bs /\ forall a j, (a < length bs)%nat -> (j < N / 2)%nat -> (cabs (nth a zs zslots j) <= bmu (nth a bs (KB 0 0 0)))%R.
  Lemma kcost_within i bs zs : within bs zs -> kokb L pb i bs -> forall j, (j < N / 2)%nat -> (cabs (kplain N zpts i zs j) <= bmu (kcost L cA cR cM cD pb i bs))%R.
  Proof.
    intros [_ H] OK j Hj. destruct i as [i k|i k|i k|i k|i|i p|i n]; cbn [kokb kcost kplain prule bmu] in *.
    - eapply Rle_trans; [apply cabs_add|]. destruct OK as [O1 O2]. apply Rplus_le_compat; apply H; assumption.
    - eapply Rle_trans; [apply cabs_sub|]. destruct OK as [O1 O2]. apply Rplus_le_compat; apply H; assumption.
    - destruct OK as (O1 & O2 & _). apply cabs_cmul_le; apply H; assumption.
    - apply H; [exact OK|]. apply Nat.mod_upper_bound. lia.
    - rewrite cabs_conj. apply H; [apply OK|exact Hj].
    - destruct OK as (O1 & O2 & _). apply cabs_cmul_le; [apply HP; assumption|apply H; assumption].
    - apply H; [apply OK|exact Hj].
  Qed.
  Lemma worst_within prog : forall bs zs, within bs zs -> kokrun L cA cR cM cD pb prog bs -> within (kcost_run L cA cR cM cD pb prog bs) (kplain_run N zpts prog zs).
  Proof.
    induction prog as [|i prog IH]; intros bs zs W OK; [exact W|]. destruct OK as [O1 O2]. apply (IH (bs ++ [_]) (zs ++ [_])); [|exact O2]. pose proof (kcost_within i bs zs W O1) as C. destruct W as [W1 W2].
    split; [rewrite !app_length; cbn; lia|]. intros a j Ha Hj. rewrite app_length in Ha. cbn in Ha. destruct (Nat.lt_ge_cases a (length bs)) as [Hl|Hl].
    - rewrite !app_nth1 by lia. apply W2; assumption.
    - rewrite !app_nth2 by lia. replace (a - length zs)%nat with 0%nat by lia. replace (a - length bs)%nat with 0%nat by lia. apply C. exact Hj.
  Qed.
End Worst.

(** ** with worst-case bounds the rule is the rule of C52 *)
Lemma cost_run_more L cA cR cM cD pb prog : forall bs, exists l, kcost_run L cA cR cM cD pb prog bs = bs ++ l /\ length l = length prog.
Proof.
  induction prog as [|i prog IH]; intros bs; [exists nil; rewrite app_nil_r; split; reflexivity|]. destruct (IH (bs ++ [kcost L cA cR cM cD pb i bs])) as (l & E & EL).
  exists (kcost L cA cR cM cD pb i bs :: l). unfold kcost_run in *. cbn [fold_left]. rewrite E, <- app_assoc. split; [reflexivity|cbn; lia].
Qed.
Lemma tight_worst L cA cR cM cD pb vs prog : forall bs, (forall n, (length bs <= n < length bs + length prog)%nat -> vs n = bmu (nth n (kcost_run L cA cR cM cD pb prog bs) (KB 0 0 0))) ->
  tcost_run L cA cR cM cD pb vs prog bs = kcost_run L cA cR cM cD pb prog bs /\ (tokrun L cA cR cM cD pb vs prog bs <-> kokrun L cA cR cM cD pb prog bs).
Proof.
  induction prog as [|i prog IH]; intros bs H; [split; [reflexivity|tauto]|].
  assert (E : tcost L cA cR cM cD pb vs i bs = kcost L cA cR cM cD pb i bs).
  { unfold tcost. rewrite (H (length bs)) by (cbn; lia). change (kcost_run L cA cR cM cD pb (i :: prog) bs) with (kcost_run L cA cR cM cD pb prog (bs ++ [kcost L cA cR cM cD pb i bs])).
    destruct (cost_run_more L cA cR cM cD pb prog (bs ++ [kcost L cA cR cM cD pb i bs])) as (l & -> & _). rewrite <- app_assoc, app_nth2, Nat.sub_diag by lia. cbn [app nth]. destruct (kcost L cA cR cM cD pb i bs). reflexivity. }
  destruct (IH (bs ++ [kcost L cA cR cM cD pb i bs])) as [A B].
  { intros n Hn. rewrite app_length in Hn. cbn in Hn. apply H. cbn. lia. }
  split; [unfold tcost_run, kcost_run in *; cbn [fold_left]; rewrite E; exact A|]. cbn [tokrun kokrun]. rewrite E, B. tauto.
Qed.
(** the worst-case bounds of C52 are legal client bounds, and with them the rule of C58 is the rule of C52 *)
Theorem C58_worst : forall N L cA cR cM cD pb zpts prog mu e (Z0 : list slots), (2 <= N)%nat ->
  (forall p j, (p < length pb)%nat -> (j < N / 2)%nat -> (cabs (nth p zpts zslots j) <= fst (nth p pb (0, 0)))%R) ->
  (forall a j, (a < length Z0)%nat -> (j < N / 2)%nat -> (cabs (nth a Z0 zslots j) <= mu)%R) ->
  let bs := map (fun _ => KB L mu e) Z0 in let vs := fun n => bmu (nth n (kcost_run L cA cR cM cD pb prog bs) (KB 0 0 0)) in kokrun L cA cR cM cD pb prog bs ->
  (forall n j, (n < length Z0 + length prog)%nat -> (j < N / 2)%nat -> (cabs (nth n (kplain_run N zpts prog Z0) zslots j) <= vs n)%R) /\
  tfresh L vs (length Z0) e = bs /\ tokrun L cA cR cM cD pb vs prog bs /\ tcost_run L cA cR cM cD pb vs prog bs = kcost_run L cA cR cM cD pb prog bs.
Proof.
  intros N L cA cR cM cD pb zpts prog mu e Z0 N2 HP HZ bs vs OK. assert (NH : (0 < N / 2)%nat) by (apply Nat.div_str_pos; lia).
  assert (LB : length bs = length Z0) by apply map_length.
  assert (NB : forall a, (a < length Z0)%nat -> nth a bs (KB 0 0 0) = KB L mu e).
  { intros a Ha. unfold bs. set (g := fun _ : slots => KB L mu e). rewrite (nth_indep _ (KB 0 0 0) (g zslots)) by (rewrite map_length; exact Ha). rewrite map_nth. reflexivity. }
  destruct (cost_run_more L cA cR cM cD pb prog bs) as (l & EL & LL).
  split; [|split; [|]].
  - destruct (worst_within N L cA cR cM cD pb zpts NH HP prog bs Z0) as [W1 W2]; [split; [symmetry; exact LB|]; intros a j Ha Hj; rewrite NB by lia; apply HZ; [lia|exact Hj]|exact OK|].
    intros n j Hn Hj. apply W2; [rewrite EL, app_length, LB, LL; exact Hn|exact Hj].
  - assert (V : forall a, (a < length Z0)%nat -> vs a = mu) by (intros a Ha; unfold vs; rewrite EL, app_nth1, NB by lia; reflexivity).
    unfold tfresh. apply (nth_ext _ _ (KB 0 0 0) (KB 0 0 0)); [rewrite map_length, seq_length, LB; reflexivity|]. rewrite map_length, seq_length. intros a Ha. rewrite NB by exact Ha.
    set (g := fun q : nat => KB L (vs q) e). rewrite (nth_indep _ (KB 0 0 0) (g 0%nat)) by (rewrite map_length, seq_length; exact Ha). rewrite map_nth, seq_nth by exact Ha. unfold g. rewrite V by exact Ha. reflexivity.
  - destruct (tight_worst L cA cR cM cD pb vs prog bs (fun n _ => eq_refl)) as [T1 T2]. split; [apply T2; exact OK|exact T1].
Qed.
Print Assumptions C58_worst.

(** ** better bounds never give larger errors *)
Definition ble (b b' : kb) : Prop := bl b = bl b' /\ (0 <= bmu b <= bmu b')%R /\ (0 <= berr b <= berr b')%R.
Lemma prod_mono (a a' b b' : RR) : (0 <= a <= a')%R -> (0 <= b <= b')%R -> (0 <= a * b <= a' * b')%R.
Proof. intros [A0 A1] [B0 B1]. split; [apply Rmult_le_pos; assumption|apply Rmult_le_compat; assumption]. Qed.
Lemma sum_mono (a a' b b' : RR) : (0 <= a <= a')%R -> (0 <= b <= b')%R -> (0 <= a + b <= a' + b')%R.
Proof. lra. Qed.
Lemma prule_mono cM cD l m0 e0 m1 e1 m0' e0' m1' e1' : (0 <= cM)%R -> (0 <= cD)%R -> (0 <= m0 <= m0')%R -> (0 <= e0 <= e0')%R -> (0 <= m1 <= m1')%R -> (0 <= e1 <= e1')%R ->
  ble (prule cM cD l m0 e0 m1 e1) (prule cM cD l m0' e0' m1' e1').
Proof.
  intros HM HD A B C D. unfold prule, ble. cbn [bl bmu berr]. split; [reflexivity|]. split; [apply prod_mono; assumption|].
  assert (X : (0 <= m0 * e1 + m1 * e0 + e0 * e1 <= m0' * e1' + m1' * e0' + e0' * e1')%R) by (repeat apply sum_mono; apply prod_mono; assumption).
  apply sum_mono; [apply sum_mono; [exact X|]; apply prod_mono; [lra|]; apply sum_mono; [apply prod_mono; assumption|exact X]|lra].
Qed.
Section Mono.
  Variables (L : nat) (cA cR cM cD : RR) (pb : list (RR * RR)) (vs vs' : nat -> RR).
  Hypotheses (HA : (0 <= cA)%R) (HR : (0 <= cR)%R) (HM : (0 <= cM)%R) (HD : (0 <= cD)%R) (HV : forall n, (0 <= vs n <= vs' n)%R).
  Hypothesis HP : forall p, (0 <= fst (nth p pb (0, 0)) /\ 0 <= snd (nth p pb (0, 0)))%R.
  Definition bles (bs bs' : list kb) : Prop := length bs = length bs' /\ forall a, ble (nth a bs (KB 0 0 0)) (nth a bs' (KB 0 0 0)).
  Lemma kcost_mono i bs bs' : bles bs bs' -> ble (kcost L cA cR cM cD pb i bs) (kcost L cA cR cM cD pb i bs').
  Proof.
    intros [_ H].
    assert (S2 : forall i j, ble (kcost L cA cR cM cD pb (KAdd i j) bs) (kcost L cA cR cM cD pb (KAdd i j) bs')).
    { intros x y. destruct (H x) as (A1 & A2 & A3). destruct (H y) as (B1 & B2 & B3). cbn [kcost]. rewrite A1, B1. unfold ble. cbn [bl bmu berr]. split; [reflexivity|]. split; [apply sum_mono; assumption|].
      apply sum_mono; [apply sum_mono; assumption|]. apply prod_mono; [|repeat apply sum_mono; assumption]. split; [|lra]. apply Rmult_le_pos; [|exact HA]. apply IZR_le. pose proof (Z.pow_pos_nonneg 2 (Z.of_nat (L - Nat.min (bl (nth x bs' (KB 0 0 0))) (bl (nth y bs' (KB 0 0 0)))))%nat ltac:(lia) ltac:(lia)). lia. }
    destruct i as [i j|i j|i j|i k|i|i p|i n]; [apply (S2 i j)|apply (S2 i j)| | | | |]; cbn [kcost].
    - destruct (H i) as (A1 & A2 & A3). destruct (H j) as (B1 & B2 & B3). rewrite A1, B1. apply prule_mono; assumption.
    - destruct (H i) as (A1 & A2 & A3). unfold ble. cbn [bl bmu berr]. split; [exact A1|]. split; [exact A2|lra].
    - destruct (H i) as (A1 & A2 & A3). unfold ble. cbn [bl bmu berr]. split; [exact A1|]. split; [exact A2|lra].
    - destruct (H i) as (A1 & A2 & A3). destruct (HP p) as [P1 P2]. rewrite A1. apply prule_mono; try assumption; lra.
    - destruct (H i) as (A1 & A2 & A3). unfold ble. cbn [bl bmu berr]. split; [congruence|]. split; assumption.
  Qed.
  Lemma tcost_run_mono prog : forall bs bs', bles bs bs' -> bles (tcost_run L cA cR cM cD pb vs prog bs) (tcost_run L cA cR cM cD pb vs' prog bs').
  Proof.
    induction prog as [|i prog IH]; intros bs bs' B; [exact B|]. apply (IH (bs ++ [_]) (bs' ++ [_])). pose proof (kcost_mono i bs bs' B) as (C1 & C2 & C3). destruct B as [B1 B2]. split; [rewrite !app_length; cbn; lia|].
    intros a. destruct (Nat.lt_ge_cases a (length bs)) as [Hl|Hl]; [rewrite !app_nth1 by lia; apply B2|]. rewrite !app_nth2 by lia. rewrite <- B1. destruct (a - length bs)%nat as [|k].
    - cbn [nth]. unfold tcost, ble. cbn [bl bmu berr]. rewrite <- B1. split; [exact C1|]. split; [apply HV|exact C3].
    - cbn [nth]. destruct k; unfold ble; cbn [bl bmu berr]; (split; [reflexivity|split; lra]).
  Qed.
End Mono.
(** the levels do not depend on the bounds, the errors grow with them *)
Theorem C58_monotone : forall L cA cR cM cD pb vs vs' prog n e a, (0 <= cA)%R -> (0 <= cR)%R -> (0 <= cM)%R -> (0 <= cD)%R -> (0 <= e)%R -> (forall k, (0 <= vs k <= vs' k)%R) ->
  (forall p, (p < length pb)%nat -> (0 <= fst (nth p pb (0, 0)) /\ 0 <= snd (nth p pb (0, 0)))%R) ->
  let b := nth a (tcost_run L cA cR cM cD pb vs prog (tfresh L vs n e)) (KB 0 0 0) in let b' := nth a (tcost_run L cA cR cM cD pb vs' prog (tfresh L vs' n e)) (KB 0 0 0) in
  bl b = bl b' /\ (berr b <= berr b')%R.
Proof.
  intros L cA cR cM cD pb vs vs' prog n e a HA HR HM HD He HV HP b b'.
  assert (HP' : forall p, (0 <= fst (nth p pb (0, 0)) /\ 0 <= snd (nth p pb (0, 0)))%R).
  { intros p. destruct (Nat.lt_ge_cases p (length pb)) as [H|H]; [apply HP; exact H|]. rewrite nth_overflow by exact H. cbn. lra. }
  destruct (tcost_run_mono L cA cR cM cD pb vs vs' HA HR HM HD HV HP' prog (tfresh L vs n e) (tfresh L vs' n e)) as [_ X].
  - split; [unfold tfresh; rewrite !map_length; reflexivity|]. intros k. unfold tfresh. destruct (Nat.lt_ge_cases k n) as [Hk|Hk].
    + set (g := fun q => KB L (vs q) e). set (g' := fun q => KB L (vs' q) e). rewrite (nth_indep _ (KB 0 0 0) (g 0%nat)) by (rewrite map_length, seq_length; exact Hk). rewrite (nth_indep (map g' (seq 0 n)) (KB 0 0 0) (g' 0%nat)) by (rewrite map_length, seq_length; exact Hk).
      rewrite !map_nth, seq_nth by exact Hk. unfold g, g', ble. cbn [bl bmu berr Nat.add]. split; [reflexivity|]. split; [apply HV|lra].
    + rewrite !nth_overflow by (rewrite map_length, seq_length; exact Hk). unfold ble. cbn. split; [reflexivity|lra].
  - destruct (X a) as (X1 & _ & X2). split; [exact X1|apply X2].
Qed.
Print Assumptions C58_monotone.

(** ** a program where the client knows better: two parties encrypt the same message (slots up to 1); difference, sum, product of the two, product with the sum.
    The exact results are 0; the rule of C52 bounds the slots of register 5 by 8; the client knows the value 0 and gets less than half of the error *)
Definition ktight_prog : list xinstr := [XK (KSub 0 1); XK (KAdd 0 1); XForm 2; XForm 3; XMul 2 3 0 1; XK (KMul 4 3)].
Definition ktight_vs (n : nat) : RR := match n with 0%nat | 1%nat => 1%R | 3%nat => 2%R | _ => 0%R end.
Theorem C58_nonvacuous : let cA := half_pow 27 in let cR := (INR 2 * half_pow 20)%R in let cM := ((INR 2 + 1) * half_pow 24)%R in let cD := half_pow 48 in let e := (half_pow 40 + half_pow 18)%R in
  xwell (@nil (Z * _) : crsT N15) 2 nil ktight_prog /\
  (forall (z : slots) n j, (forall j, (j < N15 / 2)%nat -> (cabs (z j) <= 1)%R) -> (n < 2 + 4)%nat -> (j < N15 / 2)%nat -> (cabs (nth n (kplain_run N15 nil (xerase ktight_prog) [z; z]) zslots j) <= ktight_vs n)%R) /\
  tokrun 13 cA cR cM cD nil ktight_vs (xerase ktight_prog) (tfresh 13 ktight_vs 2 e) /\
  let b := nth 5 (tcost_run 13 cA cR cM cD nil ktight_vs (xerase ktight_prog) (tfresh 13 ktight_vs 2 e)) (KB 0 0 0) in
  let b' := nth 5 (kcost_run 13 cA cR cM cD nil (xerase ktight_prog) [KB 13 1 e; KB 13 1 e]) (KB 0 0 0) in
  bl b = 11%nat /\ (ktight_vs 5 + berr b <= IZR (if (bl b =? 0)%nat then 31 else 2 ^ 40))%R /\ bmu b' = 8%R /\ (2 * berr b <= berr b')%R.
Proof.
  cbv zeta. split; [|split; [|split]].
  - cbn [xwell ktight_prog]. split; [lia|]. split; [lia|]. split; [reflexivity|]. split; [reflexivity|]. exact Logic.I.
  - intros z n j Hz Hn Hj. change (xerase ktight_prog) with [KSub 0 1; KAdd 0 1; KMul 2 3; KMul 4 3]. specialize (Hz j Hj).
    assert (Z0 : forall x : CC, csub x x = (0%R, 0%R)) by (intros [a b]; unfold csub, cadd, copp; cbn; f_equal; ring).
    assert (M0 : forall x : CC, cmul (0%R, 0%R) x = (0%R, 0%R)) by (intros [a b]; unfold cmul; cbn; f_equal; ring).
    assert (A0 : (cabs (0%R, 0%R) <= 0)%R) by (apply cabs_le; cbn; lra).
    destruct n as [|[|[|[|[|[|n]]]]]]; [| | | | | |lia]; cbn [kplain_run fold_left kplain app nth ktight_vs]; rewrite ?Z0, ?M0; try assumption. eapply Rle_trans; [apply cabs_add|lra].
  - change (xerase ktight_prog) with [KSub 0 1; KAdd 0 1; KMul 2 3; KMul 4 3]. cbn. repeat split; lia.
  - change (xerase ktight_prog) with [KSub 0 1; KAdd 0 1; KMul 2 3; KMul 4 3].
    cbn [kcost_run tcost_run tcost tfresh ktight_vs map seq fold_left app kcost prule nth length bl bmu berr Nat.min Nat.sub Z.of_nat Pos.of_succ_nat Z.sub Nat.eqb].
    change (2 ^ 0 - 1) with 0. change (INR 2) with 2%R. reals. split; [reflexivity|]. split; [lra|]. split; [lra|]. lra.
Qed.
Print Assumptions C58_nonvacuous.
