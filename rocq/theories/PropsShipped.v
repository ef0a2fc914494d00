(** C50: the parameter sets of the repository meet the hypotheses of the theorems, and with the BFV sets every program within an explicit noise budget decrypts to its result.
    Moduli, certificates and sets: Shipped.v (generated from the Go sources). *)
From Verif Require Import Base IdSetModel KeySetModel NumTheory Negacyclic Ntt Word FloatModel BasisExt BasisExtProofs DecompProofs BasisSpec Rows RlweModel SchemeSpec ExtProd ExtProps KeyGenModel Galois KeyGenProofs CtModel CtSpec CtProofs EncDecProofs EncMsgModel KeySwitchModel Digits KsLoops RotProofs ConjProofs MulProofs Instance PropsEnc PropsRotate PropsKeySwitch BfvModel PropsBfv BfvMulModel BfvConv BfvGadget BfvDig BfvKey BfvCross BfvMulProofs PropsBfvConv PropsBfvMul BfvCircuit PropsBfvCircuit PropsIndex Shipped.
From Coq Require Import Znumtheory.
Open Scope Z_scope.

(** *** the sets are well-formed *)
Fixpoint distinct (l : list Z) : bool := match l with nil => true | x :: t => negb (existsb (Z.eqb x) t) && distinct t end.
Lemma distinct_ok l : distinct l = true -> NoDup l.
Proof.
  induction l as [|x l IH]; intros H; [constructor|]. cbn [distinct] in H. apply andb_prop in H. destruct H as [H1 H2]. constructor; [|apply IH; exact H2].
  intros I. apply negb_true_iff in H1. assert (X : existsb (Z.eqb x) l = true) by (apply existsb_exists; exists x; split; [exact I|apply Z.eqb_refl]). congruence.
Qed.
Lemma shipped_wfp N pp : Forall (okmod (N := N)) (Qm pp ++ Pm pp) -> distinct (Qs pp ++ Ps pp) = true -> (0 < gam pp)%nat -> alpha pp = 1%nat -> (length (Pm pp) <= 32)%nat ->
  (0 < length (Qm pp) <= 100)%nat -> 2 <= Z.of_nat N <= 2 ^ 31 -> wfp N pp.
Proof.
  intros F D G A P Q HN. assert (OB : okbase (Qs pp ++ Ps pp)).
  { split; [apply distinct_ok; exact D|]. unfold Qs, Ps. rewrite <- map_app. apply Forall_map. apply (Forall_impl _ (P := okmod (N := N))); [|exact F]. intros m H. apply H. }
  constructor; trivial; rewrite ?A; try lia.
Qed.
Theorem C50_bfv15_wf : wfb N15 bfv15 /\ (length (bQ bfv15) mod alpha (ppQ bfv15) = 0)%nat.
Proof.
  split; [|reflexivity]. constructor; [|reflexivity|cbn; lia|cbn; lia].
  apply shipped_wfp; [exact bfv15_okm|vm_compute; reflexivity|cbn; lia|reflexivity|cbn; lia|cbn; lia|rewrite N15_Z; lia].
Qed.
Print Assumptions C50_bfv15_wf.
Theorem C50_bfv14_wf : wfb N14 bfv14 /\ (length (bQ bfv14) mod alpha (ppQ bfv14) = 0)%nat.
Proof.
  split; [|reflexivity]. constructor; [|reflexivity|cbn; lia|cbn; lia].
  apply shipped_wfp; [exact bfv14_okm|vm_compute; reflexivity|cbn; lia|reflexivity|cbn; lia|cbn; lia|rewrite N14_Z; lia].
Qed.
Print Assumptions C50_bfv14_wf.
Theorem C50_ckks_wf : wfp N15 ckks15 /\ wfp N14 ckks14 /\ wfp N14 cnn14.
Proof.
  split; [|split]; (apply shipped_wfp; [first [exact ckks15_okm|exact ckks14_okm|exact cnn14_okm]|vm_compute; reflexivity|cbn; lia|reflexivity|cbn; lia|cbn; lia|rewrite ?N15_Z, ?N14_Z; lia]).
Qed.
Print Assumptions C50_ckks_wf.

(** *** noise budget in bits *)
(** cost of one call in bits: a sum, difference, rotation or conjugation adds one to the larger operand, a product adds cM *)
Definition bcost (cM : Z) (i : binstr) (cs : list Z) : Z :=
  match i with
  | BAdd i j | BSub i j => 1 + Z.max (nth i cs 0) (nth j cs 0)
  | BMul i j => cM + Z.max (nth i cs 0) (nth j cs 0)
  | BRot i _ | BConj i => 1 + nth i cs 0
  end.
Definition bcost_run (cM : Z) (prog : list binstr) (cs : list Z) : list Z := fold_left (fun cs i => cs ++ [bcost cM i cs]) prog cs.

Ltac mono := repeat match goal with
  | |- ?x <= ?x => apply Z.le_refl
  | H : ?g |- ?g => exact H
  | |- 0 <= Z.of_nat _ => apply Nat2Z.is_nonneg
  | |- 0 <= _ / _ => apply Z.div_pos
  | |- 0 <= _ * _ => apply Z.mul_nonneg_nonneg
  | |- 0 <= _ + _ => apply Z.add_nonneg_nonneg
  | |- _ / _ <= _ / _ => apply Z.div_le_mono
  | |- _ * _ <= _ * _ => apply Z.mul_le_mono_nonneg
  | |- _ + _ <= _ + _ => apply Z.add_le_mono
  | |- Z.of_nat _ <= Z.of_nat _ => apply Nat2Z.inj_le
  | H : 0 < ?x |- 0 <= ?x => apply Z.lt_le_incl; exact H
  end.

Section Budget.
  Context {N : nat} (b : bparams) (WB : wfb N b) (HD : (length (bQ b) mod alpha (ppQ b) = 0)%nat) (crs : crsT N).
  Variables (K : nat) (B T c0 cM top : Z).
  Notation sw := (switch_noise N (ppQ b) (maxLevel (ppQ b)) (dig_bound (ppQ b) (maxLevel (ppQ b))) B T).
  Hypotheses (HB : 0 <= B) (HT : 0 <= T) (Hc0 : 0 <= c0) (HcM : 1 <= cM).
  Hypothesis HR : bT b * (Z.log2_up (Z.of_nat N) * (Z.of_nat K * sw)) <= 2 ^ c0.
  Hypothesis HA : bT b * (Z.of_nat N * phase_size N (slack (qprod b)) K T) + bT b * (Z.of_nat N * phase_size N (lift1 b) K T) + Z.of_nat N * 2 ^ top <= 2 ^ (cM - 1) * qprod b.
  Hypothesis HC : bT b * bfv_mul_noise N b K K B T <= 2 ^ (c0 + cM - 1) * qprod b.

  Lemma slack_nn x : 0 <= x -> 0 <= slack x.
  Proof. intros H. unfold slack. pose proof (Z.div_pos x (2 ^ 40) H ltac:(lia)). lia. Qed.
  Lemma maxl_nn l : 0 <= maxl l. Proof. unfold maxl. induction l as [|x l IH]; cbn [fold_right]; lia. Qed.
  Lemma prod_mono n0 n1 V0 V1 U : (n0 <= K)%nat -> (n1 <= K)%nat -> 0 <= V0 <= U -> 0 <= V1 <= U ->
    bfv_prod_noise N b n0 n1 B T V0 V1 <= bfv_prod_noise N b K K B T U U.
  Proof.
    intros H0 H1 [A0 A1] [B0 B1]. pose proof (qprod_pos b WB) as QP. pose proof (wb_t _ _ WB) as TP. assert (TN : 0 <= bT b) by lia.
    assert (MP : 0 < mprod b) by (apply (mprod_pos b WB)). assert (PP : 0 < Pprod (ppQ b)) by (apply (Pprod_pos (ppQ b) (wf_ppQ b WB))).
    pose proof (slack_nn (qprod b) ltac:(lia)) as S1. pose proof (slack_nn (mprod b) ltac:(lia)) as S2. pose proof (slack_nn (Pprod (ppQ b)) ltac:(lia)) as S3.
    assert (S4 : 0 <= rdig_bound b) by (apply slack_nn; pose proof (maxl_nn (map (Rk b) (seq 0 (bbeta b + bbeta b)))); lia).
    assert (S5 : 0 <= dig_bound (ppQ b) (maxLevel (ppQ b))) by (apply slack_nn; apply maxl_nn).
    assert (S6 : 0 <= lift1 b) by (unfold lift1; apply Z.div_pos; nia).
    assert (SW : 0 <= sw) by (unfold switch_noise; mono).
    assert (HS : (n0 + n1 <= K + K)%nat) by lia. 
    unfold bfv_prod_noise, bfv_mul_noise, bmul_noise, cross_noise, phase_size. mono.
  Qed.
  Lemma onesp_le p : 0 <= onesp p <= Z.log2 (Zpos p) + 1.
  Proof.
    induction p as [p IH|p IH|]; cbn [onesp]; [| |cbn; lia].
    - replace (Zpos p~1) with (2 * Zpos p + 1) by lia. rewrite Z.log2_succ_double by lia. lia.
    - replace (Zpos p~0) with (2 * Zpos p) by lia. rewrite Z.log2_double by lia. lia.
  Qed.
  Lemma rot_le k : 0 <= rot_count crs (k mod Z.of_nat (N / 2)) <= Z.log2_up (Z.of_nat N).
  Proof.
    pose proof (wf_N _ _ (wf_ppQ b WB)) as [N2 _]. pose proof (Nat.div_mod N 2 ltac:(lia)) as DM. assert (H0 : (0 < N / 2)%nat) by (apply Nat.div_str_pos; lia).
    pose proof (Z.mod_pos_bound k (Z.of_nat (N / 2)) ltac:(lia)) as MB. set (q := k mod _) in *. pose proof (Z.log2_up_pos (Z.of_nat N) ltac:(lia)) as L0.
    unfold rot_count. destruct (Z.eqb_spec q 0) as [E|NE]; [lia|]. destruct (mget Z.eq_dec crs q); [lia|].
    destruct q as [|p|p]; [lia| |lia]. cbn [ones]. pose proof (onesp_le p) as O. split; [lia|]. pose proof (Z.le_log2_log2_up (Z.of_nat N)). assert (X : Z.log2 (2 * Z.pos p) <= Z.log2 (Z.of_nat N)) by (apply Z.log2_le_mono; lia).
    rewrite Z.log2_double in X by lia. lia.
  Qed.
  Lemma sw_nn : 0 <= sw.
  Proof.
    assert (PP : 0 < Pprod (ppQ b)) by (apply (Pprod_pos (ppQ b) (wf_ppQ b WB))). pose proof (slack_nn (Pprod (ppQ b)) ltac:(lia)) as S3.
    assert (S5 : 0 <= dig_bound (ppQ b) (maxLevel (ppQ b))) by (apply slack_nn; apply maxl_nn). unfold switch_noise. mono.
  Qed.
  Lemma pow_le a c : 0 <= a <= c -> 2 ^ a <= 2 ^ c. Proof. intros [H1 H2]. apply Z.pow_le_mono_r; lia. Qed.
  Lemma pow_S x : 0 <= x -> 2 ^ (1 + x) = 2 ^ x + 2 ^ x. Proof. intros H. rewrite Z.pow_add_r by lia. lia. Qed.

  (** the products *)
  Lemma mul_cost n0 n1 V0 V1 x : (n0 <= K)%nat -> (n1 <= K)%nat -> 0 <= V0 <= 2 ^ x -> 0 <= V1 <= 2 ^ x -> c0 <= x <= top -> 0 <= bfv_prod_noise N b n0 n1 B T V0 V1 <= 2 ^ (cM + x).
  Proof.
    intros H0 H1 A0 A1 HX. pose proof (qprod_pos b WB) as QP. pose proof (wb_t _ _ WB) as TP. assert (TN : 0 <= bT b) by lia.
    assert (MP : 0 < mprod b) by (apply (mprod_pos b WB)). assert (PP : 0 < Pprod (ppQ b)) by (apply (Pprod_pos (ppQ b) (wf_ppQ b WB))).
    pose proof (slack_nn (qprod b) ltac:(lia)) as S1. pose proof (slack_nn (mprod b) ltac:(lia)) as S2. pose proof (slack_nn (Pprod (ppQ b)) ltac:(lia)) as S3.
    assert (S4 : 0 <= rdig_bound b) by (apply slack_nn; pose proof (maxl_nn (map (Rk b) (seq 0 (bbeta b + bbeta b)))); lia).
    assert (S5 : 0 <= dig_bound (ppQ b) (maxLevel (ppQ b))) by (apply slack_nn; apply maxl_nn).
    assert (S6 : 0 <= lift1 b) by (unfold lift1; apply Z.div_pos; nia). destruct A0 as [A0 A0'], A1 as [A1 A1']. pose proof sw_nn as SW.
    split; [unfold bfv_prod_noise, bfv_mul_noise, bmul_noise, cross_noise, phase_size; mono|].
    etransitivity; [apply (prod_mono n0 n1 V0 V1 (2 ^ x)); try assumption; lia|]. unfold bfv_prod_noise.
    set (C := bT b * bfv_mul_noise N b K K B T) in *. set (P0 := Z.of_nat N * phase_size N (slack (qprod b)) K T) in *. set (P1 := Z.of_nat N * phase_size N (lift1 b) K T) in *. clearbody C P0 P1.
    assert (X0 : 0 < 2 ^ x) by (apply Z.pow_pos_nonneg; lia). assert (X1 : 2 ^ c0 <= 2 ^ x) by (apply pow_le; lia). assert (X2 : 2 ^ x <= 2 ^ top) by (apply pow_le; lia).
    assert (X3 : 2 ^ (cM + x) = 2 * 2 ^ (cM - 1) * 2 ^ x) by (replace (cM + x) with (1 + (cM - 1) + x) by ring; rewrite !Z.pow_add_r by lia; reflexivity).
    replace (2 ^ (c0 + cM - 1)) with (2 ^ c0 * 2 ^ (cM - 1)) in HC by (rewrite <- Z.pow_add_r by lia; f_equal; ring).
    assert (M0 : 0 < 2 ^ (cM - 1)) by (apply Z.pow_pos_nonneg; lia).
    apply Z.div_le_upper_bound; [exact QP|]. rewrite X3. set (U := 2 ^ x) in *. set (M := 2 ^ (cM - 1)) in *. set (c := 2 ^ c0) in *. set (tp := 2 ^ top) in *. clearbody U M c tp. clear - HA HC QP X0 X1 X2 M0.
    assert (E1 : Z.of_nat N * U * U <= Z.of_nat N * tp * U) by (apply Z.mul_le_mono_nonneg_r; [lia|]; apply Z.mul_le_mono_nonneg_l; lia).
    assert (E2 : c * M * qprod b <= U * M * qprod b) by (apply Z.mul_le_mono_nonneg_r; [lia|]; apply Z.mul_le_mono_nonneg_r; lia).
    assert (E3 : (bT b * P0 + bT b * P1 + Z.of_nat N * tp) * U <= M * qprod b * U) by (apply Z.mul_le_mono_nonneg_r; lia). nia.
  Qed.

  Variable P : list string.
  Hypothesis HK : (length P <= K)%nat.
  Definition binv (ids : list (list string)) (Vs cs : list Z) : Prop :=
    length ids = length cs /\ length Vs = length cs /\ forall a, (a < length cs)%nat -> NoDup (nth a ids nil) /\ incl (nth a ids nil) P /\ c0 <= nth a cs 0 /\ (nth a cs 0 <= top -> 0 <= nth a Vs 0 <= 2 ^ nth a cs 0).
  Lemma step_cost i ids Vs cs : binv ids Vs cs -> (forall a, In a (bargs i) -> (a < length cs)%nat) -> binv (ids ++ [bids i ids]) (Vs ++ [bnoise b crs B T i ids Vs]) (cs ++ [bcost cM i cs]).
  Proof.
    intros (L1 & L2 & H) HV. split; [rewrite !app_length; cbn; lia|]. split; [rewrite !app_length; cbn; lia|].
    intros a Ha. rewrite app_length in Ha. cbn [length] in Ha. rewrite !nth_snoc, L1, L2. destruct (Nat.ltb_spec a (length cs)) as [La|La]; [apply H; exact La|].
    destruct (Nat.eqb_spec a (length cs)) as [_|NE]; [|lia].
    assert (LEN : forall a, In a (bargs i) -> (length (nth a ids nil) <= K)%nat).
    { intros x Hx. destruct (H x (HV x Hx)) as (N1 & N2 & _). pose proof (NoDup_incl_length N1 N2). lia. }
    split; [unfold bids; apply NoDup_nodup|]. split.
    { intros x Hx. unfold bids in Hx. apply nodup_In in Hx. apply in_concat in Hx. destruct Hx as (l & I1 & I2). apply in_map_iff in I1. destruct I1 as (y & <- & I3). apply (H y (HV y I3)). exact I2. }
    pose proof sw_nn as SW. pose proof (wb_t _ _ WB) as TP.
    assert (ONE : forall y x, In y (bargs i) -> 0 <= x <= Z.log2_up (Z.of_nat N) -> 0 <= bT b * (x * (Z.of_nat (length (nth y ids nil)) * sw)) <= 2 ^ c0).
    { intros y x Hy Hx. assert (TN : 0 <= bT b) by lia. destruct Hx as [Hx Hx']. specialize (LEN y Hy). split; [mono|]. etransitivity; [|exact HR]. mono. }
    destruct i as [i j|i j|i j|i k|i]; cbn [bargs In bcost bnoise] in *.
    1,2: destruct (H i ltac:(apply HV; tauto)) as (_ & _ & A1 & A2); destruct (H j ltac:(apply HV; tauto)) as (_ & _ & B1 & B2); split; [lia|]; intros HT'; specialize (A2 ltac:(lia)); specialize (B2 ltac:(lia)); rewrite pow_S by lia;
      pose proof (pow_le (nth i cs 0) (Z.max (nth i cs 0) (nth j cs 0)) ltac:(lia)); pose proof (pow_le (nth j cs 0) (Z.max (nth i cs 0) (nth j cs 0)) ltac:(lia)); lia.
    - destruct (H i ltac:(apply HV; tauto)) as (_ & _ & A1 & A2); destruct (H j ltac:(apply HV; tauto)) as (_ & _ & B1 & B2). split; [lia|]. intros HT'. specialize (A2 ltac:(lia)); specialize (B2 ltac:(lia)).
      pose proof (pow_le (nth i cs 0) (Z.max (nth i cs 0) (nth j cs 0)) ltac:(lia)); pose proof (pow_le (nth j cs 0) (Z.max (nth i cs 0) (nth j cs 0)) ltac:(lia)). apply mul_cost; try (apply LEN; tauto); lia.
    - destruct (H i ltac:(apply HV; tauto)) as (_ & _ & A1 & A2). split; [lia|]. intros HT'. specialize (A2 ltac:(lia)). rewrite pow_S by lia. pose proof (pow_le c0 (nth i cs 0) ltac:(lia)). pose proof (ONE i _ ltac:(tauto) (rot_le k)). lia.
    - destruct (H i ltac:(apply HV; tauto)) as (_ & _ & A1 & A2). split; [lia|]. intros HT'. specialize (A2 ltac:(lia)). rewrite pow_S by lia. pose proof (pow_le c0 (nth i cs 0) ltac:(lia)).
      pose proof (wf_N _ _ (wf_ppQ b WB)) as [N2 _]. pose proof (Z.log2_up_pos (Z.of_nat N) ltac:(lia)) as L0. pose proof (ONE i 1 ltac:(tauto) ltac:(lia)) as X. rewrite Z.mul_1_l in X. lia.
  Qed.
  Lemma run_cost prog : forall ids Vs cs, binv ids Vs cs -> bvalid (length cs) prog -> binv (bids_run prog ids) (bnoise_run b crs B T prog ids Vs) (bcost_run cM prog cs).
  Proof.
    induction prog as [|i prog IH]; intros ids Vs cs H V; [exact H|]. destruct V as [V1 V2]. cbn [bids_run bcost_run bnoise_run fold_left]. apply IH; [apply step_cost; assumption|]. rewrite app_length. cbn [length]. rewrite Nat.add_comm. exact V2.
  Qed.
  Lemma run_len prog : forall cs : list Z, length (bcost_run cM prog cs) = (length cs + length prog)%nat.
  Proof. induction prog as [|i prog IH]; intros cs; cbn [bcost_run fold_left length]; [lia|]. fold (bcost_run cM prog (cs ++ [bcost cM i cs])). rewrite IH, app_length. cbn. lia. Qed.
  (** a fresh encryption costs c0 *)
  Lemma budget D (ins : list (binput N)) prog a : bfresh_noise N b B T D <= 2 ^ c0 -> 0 <= bfresh_noise N b B T D -> 2 * 2 ^ top < qprod b -> (forall x, In x ins -> In (bi_id x) P) -> bvalid (length ins) prog -> (a < length ins + length prog)%nat ->
    nth a (bcost_run cM prog (map (fun _ => c0) ins)) 0 <= top ->
    2 * nth a (bnoise_run b crs B T prog (map (fun x => [bi_id x]) ins) (map (fun _ => bfresh_noise N b B T D) ins)) 0 < qprod b.
  Proof.
    intros HF HF0 HQ HI V Ha HT'.
    assert (I0 : binv (map (fun x => [bi_id x]) ins) (map (fun _ => bfresh_noise N b B T D) ins) (map (fun _ => c0) ins)).
    { split; [rewrite !map_length; reflexivity|]. split; [rewrite !map_length; reflexivity|]. intros x Hx. rewrite map_length in Hx.
      destruct (nth_error ins x) as [y|] eqn:E; [|apply nth_error_None in E; lia].
      rewrite (nth_error_nth (map (fun x => [bi_id x]) ins) x nil (x := [bi_id y])) by (rewrite nth_error_map, E; reflexivity).
      rewrite (nth_error_nth (map (fun _ => bfresh_noise N b B T D) ins) x 0 (x := bfresh_noise N b B T D)) by (rewrite nth_error_map, E; reflexivity).
      rewrite (nth_error_nth (map (fun _ => c0) ins) x 0 (x := c0)) by (rewrite nth_error_map, E; reflexivity).
      split; [repeat constructor; intros []|]. split; [intros z [<-|[]]; apply HI; apply (nth_error_In _ _ E)|]. split; [lia|]. intros _. lia. }
    apply (run_cost prog) in I0; [|rewrite map_length; exact V]. destruct I0 as (_ & _ & I). destruct (I a) as (_ & _ & C1 & C2); [rewrite run_len, map_length; exact Ha|].
    specialize (C2 HT'). pose proof (pow_le (nth a (bcost_run cM prog (map (fun _ => c0) ins)) 0) top ltac:(lia)). lia.
  Qed.
End Budget.

(** *** the numbers of the two BFV sets: up to 64 parties, Gaussian errors up to 19 = int(6 * 3.2) (rlwe.DefaultSigma, mkrlwe/keygen.go:35, encryptor.go:48), ternary secrets *)
Lemma beta15 : beta (ppQ bfv15) (maxLevel (ppQ bfv15)) = 14%nat. Proof. vm_compute. reflexivity. Qed.
Lemma beta14 : beta (ppQ bfv14) (maxLevel (ppQ bfv14)) = 6%nat. Proof. vm_compute. reflexivity. Qed.
Ltac numbers HN HB := unfold bfv_mul_noise, bmul_noise, cross_noise, phase_size, switch_noise, bfresh_noise, rdig_bound, bbeta, dig_bound; rewrite ?HN, ?HB; vm_compute; first [reflexivity|discriminate].
Lemma num15 : let sw := switch_noise N15 (ppQ bfv15) (maxLevel (ppQ bfv15)) (dig_bound (ppQ bfv15) (maxLevel (ppQ bfv15))) 19 1 in
  bT bfv15 * (Z.log2_up (Z.of_nat N15) * (Z.of_nat 64 * sw)) <= 2 ^ 41 /\
  bT bfv15 * (Z.of_nat N15 * phase_size N15 (slack (qprod bfv15)) 64 1) + bT bfv15 * (Z.of_nat N15 * phase_size N15 (lift1 bfv15) 64 1) + Z.of_nat N15 * 2 ^ 758 <= 2 ^ (55 - 1) * qprod bfv15 /\
  bT bfv15 * bfv_mul_noise N15 bfv15 64 64 19 1 <= 2 ^ (41 + 55 - 1) * qprod bfv15 /\
  0 <= bfresh_noise N15 bfv15 19 1 65537 <= 2 ^ 41 /\ 2 * 2 ^ 758 < qprod bfv15.
Proof. cbv zeta. split; [numbers N15_Z beta15|]. split; [numbers N15_Z beta15|]. split; [numbers N15_Z beta15|]. split; [split; numbers N15_Z beta15|vm_compute; reflexivity]. Qed.
Lemma num14 : let sw := switch_noise N14 (ppQ bfv14) (maxLevel (ppQ bfv14)) (dig_bound (ppQ bfv14) (maxLevel (ppQ bfv14))) 19 1 in
  bT bfv14 * (Z.log2_up (Z.of_nat N14) * (Z.of_nat 64 * sw)) <= 2 ^ 40 /\
  bT bfv14 * (Z.of_nat N14 * phase_size N14 (slack (qprod bfv14)) 64 1) + bT bfv14 * (Z.of_nat N14 * phase_size N14 (lift1 bfv14) 64 1) + Z.of_nat N14 * 2 ^ 317 <= 2 ^ (53 - 1) * qprod bfv14 /\
  bT bfv14 * bfv_mul_noise N14 bfv14 64 64 19 1 <= 2 ^ (40 + 53 - 1) * qprod bfv14 /\
  0 <= bfresh_noise N14 bfv14 19 1 65537 <= 2 ^ 40 /\ 2 * 2 ^ 317 < qprod bfv14.
Proof. cbv zeta. split; [numbers N14_Z beta14|]. split; [numbers N14_Z beta14|]. split; [numbers N14_Z beta14|]. split; [split; numbers N14_Z beta14|vm_compute; reflexivity]. Qed.
Lemma small15 : small_ok (ppQ bfv15) 19 /\ small_ok (ppQ bfv15) 1.
Proof. split; (split; [vm_compute; reflexivity|]; intros [|[|k]] Hk; [vm_compute; discriminate|vm_compute; discriminate|cbn in Hk; lia]). Qed.
Lemma small14 : small_ok (ppQ bfv14) 19 /\ small_ok (ppQ bfv14) 1.
Proof. split; (split; [vm_compute; reflexivity|]; intros [|[|k]] Hk; [vm_compute; discriminate|vm_compute; discriminate|cbn in Hk; lia]). Qed.

(** With PN15QP880: up to 64 parties generate their keys and encrypt messages modulo t = 65537; the server runs any program. A fresh ciphertext costs 41 bits, a sum, difference, rotation or conjugation
    one bit more than its larger operand, a product 55 bits more. Every register that costs at most 758 bits decrypts to the result of the program on the messages, modulo t. *)
Theorem C50_bfv15_program : forall crs (rs : brlkset N15) (rk : rotset N15) (ck : conjset N15) sks (pk : string -> publicKey N15) (s r : string -> R N15) (P : list string) rots
  (w : nat -> nat -> IdSetModel.order) (oe : nat -> list string -> list string) (o : IdSetModel.order) (ins : list (binput N15)) prog a,
  (forall n m, order_ok (w n m)) -> (forall n, ord1_ok (oe n)) -> order_ok o ->
  (forall i, In i ([0; -1; -2; -3] ++ rots) -> exists c, mget Z.eq_dec crs i = Some c /\ crs_ok (ppQ bfv15) c) ->
  mwf sks -> (forall id k, mget seq_dec sks id = Some k -> In id P) -> (length P <= 64)%nat ->
  (forall id, In id P -> id <> id0 /\ bgenerated bfv15 19 1 crs rs rk ck sks rots pk id (s id) (r id)) ->
  (forall x, In x ins -> In (bi_id x) P /\ binput_ok bfv15 19 1 65537 x) ->
  bvalid (length ins) prog -> brots crs prog rots -> (a < length ins + length prog)%nat ->
  nth a (bcost_run 55 prog (map (fun _ => 41) ins)) 0 <= 758 ->
  exists cs p, bsession bfv15 crs rs rk ck pk w oe ins prog = Ok cs /\ bDecrypt (ppQ bfv15) o (nth a cs nil) sks = Ok p /\ (exists X, residues (Qs (ppQ bfv15)) (prows p) X) /\
    forall X i, residues (Qs (ppQ bfv15)) (prows p) X -> (i < N15)%nat -> (65537 | (2 * (65537 * co X i) + qprod bfv15) / (2 * qprod bfv15) - co (nth a (bplain_run prog (map bi_m ins)) R0) i).
Proof.
  intros crs rs rk ck sks pk s r P rots w oe o ins prog a O OE OD HC MW HS HP HG HI V HR Ha HV. destruct C50_bfv15_wf as [WB HD]. destruct small15 as [S1 S2]. destruct num15 as (E1 & E2 & E3 & [E4 E5] & E6).
  apply (C47_end_to_end N15 bfv15 19 1 65537 crs rs rk ck sks pk s r P rots w oe o ins prog a); trivial.
  apply (budget bfv15 WB HD crs 64 19 1 41 55 758 ltac:(lia) ltac:(lia) ltac:(lia) ltac:(lia) E1 E2 E3 P HP 65537 ins prog a); trivial. intros x Hx. apply (HI x Hx).
Qed.
Print Assumptions C50_bfv15_program.
Theorem C50_bfv14_program : forall crs (rs : brlkset N14) (rk : rotset N14) (ck : conjset N14) sks (pk : string -> publicKey N14) (s r : string -> R N14) (P : list string) rots
  (w : nat -> nat -> IdSetModel.order) (oe : nat -> list string -> list string) (o : IdSetModel.order) (ins : list (binput N14)) prog a,
  (forall n m, order_ok (w n m)) -> (forall n, ord1_ok (oe n)) -> order_ok o ->
  (forall i, In i ([0; -1; -2; -3] ++ rots) -> exists c, mget Z.eq_dec crs i = Some c /\ crs_ok (ppQ bfv14) c) ->
  mwf sks -> (forall id k, mget seq_dec sks id = Some k -> In id P) -> (length P <= 64)%nat ->
  (forall id, In id P -> id <> id0 /\ bgenerated bfv14 19 1 crs rs rk ck sks rots pk id (s id) (r id)) ->
  (forall x, In x ins -> In (bi_id x) P /\ binput_ok bfv14 19 1 65537 x) ->
  bvalid (length ins) prog -> brots crs prog rots -> (a < length ins + length prog)%nat ->
  nth a (bcost_run 53 prog (map (fun _ => 40) ins)) 0 <= 317 ->
  exists cs p, bsession bfv14 crs rs rk ck pk w oe ins prog = Ok cs /\ bDecrypt (ppQ bfv14) o (nth a cs nil) sks = Ok p /\ (exists X, residues (Qs (ppQ bfv14)) (prows p) X) /\
    forall X i, residues (Qs (ppQ bfv14)) (prows p) X -> (i < N14)%nat -> (65537 | (2 * (65537 * co X i) + qprod bfv14) / (2 * qprod bfv14) - co (nth a (bplain_run prog (map bi_m ins)) R0) i).
Proof.
  intros crs rs rk ck sks pk s r P rots w oe o ins prog a O OE OD HC MW HS HP HG HI V HR Ha HV. destruct C50_bfv14_wf as [WB HD]. destruct small14 as [S1 S2]. destruct num14 as (E1 & E2 & E3 & [E4 E5] & E6).
  apply (C47_end_to_end N14 bfv14 19 1 65537 crs rs rk ck sks pk s r P rots w oe o ins prog a); trivial.
  apply (budget bfv14 WB HD crs 64 19 1 40 53 317 ltac:(lia) ltac:(lia) ltac:(lia) ltac:(lia) E1 E2 E3 P HP 65537 ins prog a); trivial. intros x Hx. apply (HI x Hx).
Qed.
Print Assumptions C50_bfv14_program.

(** a cruder count: products and other calls of the whole program *)
Definition is_mul (i : binstr) : bool := match i with BMul _ _ => true | _ => false end.
Definition nmul (prog : list binstr) : Z := Z.of_nat (length (filter is_mul prog)).
Definition nother (prog : list binstr) : Z := Z.of_nat (length (filter (fun i => negb (is_mul i)) prog)).
Theorem C50_count : forall cM c0 m prog (cs : list Z) a, 1 <= cM -> 0 <= m -> (forall x, In x cs -> x <= m) -> c0 <= m -> nth a (bcost_run cM prog cs) 0 <= m + cM * nmul prog + nother prog.
Proof.
  intros cM c0 m prog. revert m. induction prog as [|i prog IH]; intros m cs a HM H0 HX HC.
  - cbn. replace (m + cM * 0 + 0) with m by ring. destruct (Nat.lt_ge_cases a (length cs)) as [L|L]; [apply HX; apply nth_In; exact L|rewrite nth_overflow by exact L; exact H0].
  - cbn [bcost_run fold_left]. assert (NB : forall n, nth n cs 0 <= m) by (intros n; destruct (Nat.lt_ge_cases n (length cs)) as [L|L]; [apply HX; apply nth_In; exact L|rewrite nth_overflow by exact L; exact H0]).
    set (k := if is_mul i then cM else 1). assert (K : 1 <= k) by (unfold k; destruct (is_mul i); lia).
    assert (BC : bcost cM i cs <= m + k). { destruct i as [i j|i j|i j|i j|i]; cbn [bcost]; subst k; cbn [is_mul]; try pose proof (NB i); try pose proof (NB j); lia. }
    etransitivity; [apply (IH (m + k)); [exact HM|lia| |lia]; intros x Hx; apply in_app_or in Hx; destruct Hx as [Hx|[<-|[]]]; [specialize (HX x Hx); lia|exact BC]|].
    unfold nmul, nother, k. cbn [filter]. destruct (is_mul i); cbn [negb length]; lia.
Qed.
(** with PN15QP880 every program of at most 12 products and 57 other calls stays within the budget, with PN14QP439 every program of at most 4 products and 65 other calls *)
Theorem C50_enough : forall (ins : list (binput N15)) (ins' : list (binput N14)) prog a,
  (nmul prog <= 12 -> nother prog <= 57 -> nth a (bcost_run 55 prog (map (fun _ => 41) ins)) 0 <= 758) /\
  (nmul prog <= 4 -> nother prog <= 65 -> nth a (bcost_run 53 prog (map (fun _ => 40) ins')) 0 <= 317).
Proof.
  intros ins ins' prog a. split; intros H1 H2.
  - etransitivity; [apply (C50_count 55 41 41); try lia; intros x Hx; apply in_map_iff in Hx; destruct Hx as (y & <- & _); lia|lia].
  - etransitivity; [apply (C50_count 53 40 40); try lia; intros x Hx; apply in_map_iff in Hx; destruct Hx as (y & <- & _); lia|lia].
Qed.

(** n squarings, one after the other *)
Definition squarings (n : nat) : list binstr := map (fun k => BMul k k) (seq 0 n).
Fixpoint sqn {N} (n : nat) (m : R N) : R N := match n with O => m | S n => mul (sqn n m) (sqn n m) end.
Lemma squarings_S n : squarings (S n) = squarings n ++ [BMul n n]. Proof. unfold squarings. rewrite seq_S, map_app. reflexivity. Qed.
Lemma squarings_valid n : bvalid 1 (squarings n).
Proof.
  unfold squarings. assert (X : forall st k, (st < k)%nat -> bvalid k (map (fun k => BMul k k) (seq st n))); [|apply X; lia].
  induction n as [|n IH]; intros st k H; [exact Logic.I|]. cbn [seq map bvalid bargs]. split; [cbn; intros a [<-|[<-|[]]]; exact H|]. apply IH. lia.
Qed.
Lemma squarings_plain {N} n (m : R N) : length (bplain_run (squarings n) [m]) = S n /\ nth n (bplain_run (squarings n) [m]) R0 = sqn n m.
Proof.
  induction n as [|n [IH1 IH2]]; [split; reflexivity|]. rewrite squarings_S. unfold bplain_run in *. rewrite fold_left_app. cbn [fold_left]. split; [rewrite app_length, IH1; cbn; lia|].
  rewrite app_nth2 by lia. rewrite IH1, Nat.sub_diag. cbn [nth bplain sqn]. rewrite IH2. reflexivity.
Qed.
Lemma squarings_cost n cM c0 : length (bcost_run cM (squarings n) [c0]) = S n /\ nth n (bcost_run cM (squarings n) [c0]) 0 = c0 + cM * Z.of_nat n.
Proof.
  induction n as [|n [IH1 IH2]]; [split; cbn; [reflexivity|ring]|]. rewrite squarings_S. unfold bcost_run in *. rewrite fold_left_app. cbn [fold_left]. split; [rewrite app_length, IH1; cbn; lia|].
  rewrite app_nth2 by lia. rewrite IH1, Nat.sub_diag. cbn [nth bcost]. rewrite IH2. lia.
Qed.

Theorem C50_bfv15_squarings : forall crs (rs : brlkset N15) (rk : rotset N15) (ck : conjset N15) sks (pk : string -> publicKey N15) (s r : string -> R N15) (P : list string)
  (w : nat -> nat -> IdSetModel.order) (oe : nat -> list string -> list string) (o : IdSetModel.order) (x : binput N15) n,
  (forall n m, order_ok (w n m)) -> (forall n, ord1_ok (oe n)) -> order_ok o ->
  (forall i, In i [0; -1; -2; -3] -> exists c, mget Z.eq_dec crs i = Some c /\ crs_ok (ppQ bfv15) c) ->
  mwf sks -> (forall id k, mget seq_dec sks id = Some k -> In id P) -> (length P <= 64)%nat ->
  (forall id, In id P -> id <> id0 /\ bgenerated bfv15 19 1 crs rs rk ck sks nil pk id (s id) (r id)) -> In (bi_id x) P -> binput_ok bfv15 19 1 65537 x -> (n <= 13)%nat ->
  exists cs p, bsession bfv15 crs rs rk ck pk w oe [x] (squarings n) = Ok cs /\ bDecrypt (ppQ bfv15) o (nth n cs nil) sks = Ok p /\ (exists X, residues (Qs (ppQ bfv15)) (prows p) X) /\
    forall X i, residues (Qs (ppQ bfv15)) (prows p) X -> (i < N15)%nat -> (65537 | (2 * (65537 * co X i) + qprod bfv15) / (2 * qprod bfv15) - co (sqn n (bi_m x)) i).
Proof.
  intros crs rs rk ck sks pk s r P w oe o x n O OE OD HC MW HS HP HG HI HX Hn. destruct (squarings_plain n (bi_m x)) as [_ E]. destruct (squarings_cost n 55 41) as [_ C]. rewrite <- E.
  apply (C50_bfv15_program crs rs rk ck sks pk s r P nil w oe o [x] (squarings n) n); trivial.
  - intros y [<-|[]]. split; assumption.
  - apply squarings_valid.
  - intros i k j H. unfold squarings in H. apply in_map_iff in H. destruct H as (y & H & _). discriminate H.
  - unfold squarings. rewrite map_length, seq_length. cbn. lia.
  - cbn [map]. rewrite C. lia.
Qed.
Theorem C50_bfv14_squarings : forall crs (rs : brlkset N14) (rk : rotset N14) (ck : conjset N14) sks (pk : string -> publicKey N14) (s r : string -> R N14) (P : list string)
  (w : nat -> nat -> IdSetModel.order) (oe : nat -> list string -> list string) (o : IdSetModel.order) (x : binput N14) n,
  (forall n m, order_ok (w n m)) -> (forall n, ord1_ok (oe n)) -> order_ok o ->
  (forall i, In i [0; -1; -2; -3] -> exists c, mget Z.eq_dec crs i = Some c /\ crs_ok (ppQ bfv14) c) ->
  mwf sks -> (forall id k, mget seq_dec sks id = Some k -> In id P) -> (length P <= 64)%nat ->
  (forall id, In id P -> id <> id0 /\ bgenerated bfv14 19 1 crs rs rk ck sks nil pk id (s id) (r id)) -> In (bi_id x) P -> binput_ok bfv14 19 1 65537 x -> (n <= 5)%nat ->
  exists cs p, bsession bfv14 crs rs rk ck pk w oe [x] (squarings n) = Ok cs /\ bDecrypt (ppQ bfv14) o (nth n cs nil) sks = Ok p /\ (exists X, residues (Qs (ppQ bfv14)) (prows p) X) /\
    forall X i, residues (Qs (ppQ bfv14)) (prows p) X -> (i < N14)%nat -> (65537 | (2 * (65537 * co X i) + qprod bfv14) / (2 * qprod bfv14) - co (sqn n (bi_m x)) i).
Proof.
  intros crs rs rk ck sks pk s r P w oe o x n O OE OD HC MW HS HP HG HI HX Hn. destruct (squarings_plain n (bi_m x)) as [_ E]. destruct (squarings_cost n 53 40) as [_ C]. rewrite <- E.
  apply (C50_bfv14_program crs rs rk ck sks pk s r P nil w oe o [x] (squarings n) n); trivial.
  - intros y [<-|[]]. split; assumption.
  - apply squarings_valid.
  - intros i k j H. unfold squarings in H. apply in_map_iff in H. destruct H as (y & H & _). discriminate H.
  - unfold squarings. rewrite map_length, seq_length. cbn. lia.
  - cbn [map]. rewrite C. lia.
Qed.

(** *** the CRS of NewParameters, and a complete set of keys *)
Definition defaults (logN : nat) : list Z := map (fun t => 2 ^ Z.of_nat t) (seq 0 (logN - 1)).
Section Setup.
  Context {N : nat} (b : bparams) (WB : wfb N b) (HD : (length (bQ b) mod alpha (ppQ b) = 0)%nat) (logN : nat) (EN : N = (2 ^ logN)%nat) (HL : (0 < logN)%nat).
  Variable u : Z -> nat -> polyQP N.
  Hypothesis HU : forall i j, (j < beta (ppQ b) (maxLevel (ppQ b)))%nat -> wordsQP (ppQ b) (u i j).
  Notation crs := (NewCRS (ppQ b) logN u).

  Lemma crs_in i : In i (keys crs) <-> In i [0; -1; -2; -3; -4] \/ In i (defaults logN).
  Proof. destruct (C04_crs_indices N (ppQ b) logN u i HL) as [X _]. unfold defaults. rewrite <- (default_index_pow logN i HL). exact X. Qed.
  Lemma crs_entries i : In i [0; -1; -2; -3; -4] \/ In i (defaults logN) -> mget Z.eq_dec crs i = Some (crs_entry (ppQ b) (u i)) /\ crs_ok (ppQ b) (crs_entry (ppQ b) (u i)).
  Proof.
    intros H. apply crs_in in H. destruct (C04_crs_indices N (ppQ b) logN u i HL) as [_ X]. split; [apply X; exact H|]. apply (crs_entry_ok (ppQ b) (wf_ppQ b WB)). intros k Hk. apply HU. exact Hk.
  Qed.
  Lemma crs_setup i : In i ([0; -1; -2; -3] ++ defaults logN) -> exists c, mget Z.eq_dec crs i = Some c /\ crs_ok (ppQ b) c.
  Proof. intros H. exists (crs_entry (ppQ b) (u i)). apply crs_entries. apply in_app_or in H. cbn [In] in *. tauto. Qed.
  (** every rotation amount is served by the default keys *)
  Lemma crs_rots prog : brots crs prog (defaults logN).
  Proof.
    intros i k j _ q NZ U. pose proof (pow_half logN HL) as PH. assert (HN : 0 < Z.of_nat (N / 2)) by (rewrite EN, PH; apply Z.pow_pos_nonneg; lia).
    pose proof (Z.mod_pos_bound k (Z.of_nat (N / 2)) HN) as MB. fold q in MB. destruct U as [[A ->]|(A & t & T1 & T2 & ->)].
    - apply (mget_In_keys Z.eq_dec) in A. apply crs_in in A. destruct A as [A|A]; [|exact A]. cbn [In] in A. lia.
    - apply (default_index_pow logN (2 ^ t) HL). rewrite <- EN. exists t. split; [exact T1|]. split; [reflexivity|]. destruct (Z.le_gt_cases (2 ^ t) q) as [L|G]; [lia|]. exfalso.
      rewrite Z.bits_above_log2 in T2; [discriminate|lia|]. apply Z.log2_lt_pow2; lia.
  Qed.

  (** whatever secrets and errors within the bounds the samplers deliver, every party can generate all its keys *)
  Variables (B T : Z) (HB : small_ok (ppQ b) B) (HT : small_ok (ppQ b) T) (s r e : string -> R N).
  Hypotheses (Hs : forall id, bnd (s id) T) (Hr : forall id, bnd (r id) T) (He : forall id, bnd (e id) B).
  Notation smp id := (rows_of (ppQ b) (e id)).
  Notation sk id := (genSecretKeyFromSampler (ppQ b) id (rows_of (ppQ b) (s id))).
  Lemma setup P : exists (rs : brlkset N) (rk : rotset N) (ck : conjset N) sks pk, mwf sks /\ (forall id k, mget seq_dec sks id = Some k -> In id P) /\
    forall id, In id P -> bgenerated b B T crs rs rk ck sks (defaults logN) pk id (s id) (r id).
  Proof.
    pose proof (wf_ppQ b WB) as WF.
    assert (SE : forall id, is_sample (ppQ b) B (e id) (smp id)) by (intros id; apply (rows_of_sample (ppQ b) N B (e id) WF (He id))).
    assert (SS : forall id, is_sample (ppQ b) T (s id) (rows_of (ppQ b) (s id))) by (intros id; apply (rows_of_sample (ppQ b) N T (s id) WF (Hs id))).
    assert (SR : forall id, is_sample (ppQ b) T (r id) (rows_of (ppQ b) (r id))) by (intros id; apply (rows_of_sample (ppQ b) N T (r id) WF (Hr id))).
    assert (SV : forall id, mval (ppQ b) (maxLevel (ppQ b)) (sk_val (sk id)) (fun _ => s id)) by (intros id; apply (genSecretKey_ok (ppQ b) WF T (s id) id _ HT (SS id))).
    assert (SRV : forall id, mval (ppQ b) (maxLevel (ppQ b)) (sk_val (genSecretKeyFromSampler (ppQ b) id (rows_of (ppQ b) (r id)))) (fun _ => r id)) by (intros id; apply (genSecretKey_ok (ppQ b) WF T (r id) id _ HT (SR id))).
    assert (CE : forall i, In i [0; -1; -2; -3] \/ In i (defaults logN) -> mget Z.eq_dec crs i = Some (crs_entry (ppQ b) (u i)) /\ crs_ok (ppQ b) (crs_entry (ppQ b) (u i))) by (intros i Hi; apply crs_entries; cbn [In] in *; tauto).
    assert (HPK : forall id, exists k, GenPublicKey (ppQ b) crs (sk id) (smp id) = Ok k).
    { intros id. destruct (CE 0) as [G C]; [left; cbn; tauto|]. destruct (GenPublicKey_ok (ppQ b) WF B (e id) (smp id) crs _ (sk id) (s id) HB (SE id) (SV id) G C) as (k & A & _). exists k. exact A. }
    assert (HRL : forall id, exists k, bGenRelinearizationKey b crs (sk id) (genSecretKeyFromSampler (ppQ b) id (rows_of (ppQ b) (r id))) (fun _ => smp id) (fun _ => smp id) (fun _ => smp id) (fun _ => smp id) (fun _ => smp id) = Ok k).
    { intros id. destruct (CE 0) as [G1 C1]; [left; cbn; tauto|]. destruct (CE (-3)) as [G2 C2]; [left; cbn; tauto|]. destruct (CE (-1)) as [G3 C3]; [left; cbn; tauto|].
      destruct (C40_keygen N b B T (fun _ => e id) (fun _ => e id) (fun _ => e id) (fun _ => smp id) (fun _ => smp id) (fun _ => smp id) (fun _ => smp id) (fun _ => smp id) crs (crs_entry (ppQ b) (u 0)) (crs_entry (ppQ b) (u (-3))) (crs_entry (ppQ b) (u (-1)))
        (sk id) (genSecretKeyFromSampler (ppQ b) id (rows_of (ppQ b) (r id))) (s id) (r id) WB HD HB) as (k & A & _); trivial.
      - intros k _. do 4 (split; [apply SE|]). apply SE.
      - exists k. exact A. }
    assert (HRT : forall id i, In i (defaults logN) -> exists k, GenRotationKey (ppQ b) crs i (sk id) (fun _ => smp id) = Ok k).
    { intros id i Hi. destruct (CE i (or_intror Hi)) as [G C]. destruct (GenRotationKey_ok (ppQ b) WF B (fun _ => e id) (fun _ => smp id) crs i (crs_entry (ppQ b) (u i)) i (crs_entry (ppQ b) (u i)) (sk id) (s id) HB (fun _ _ => SE id) (SV id) G) as (k & A & _); [|exact G|exact C|exists k; exact A].
      unfold defaults in Hi. apply in_map_iff in Hi. destruct Hi as (t & <- & _). destruct (Z.ltb_spec (2 ^ Z.of_nat t) 0) as [L|_]; [|reflexivity]. pose proof (Z.pow_nonneg 2 (Z.of_nat t) ltac:(lia)). lia. }
    assert (HCJ : forall id, exists k, GenConjugationKey (ppQ b) crs (sk id) (fun _ => smp id) = Ok k).
    { intros id. destruct (CE (-2)) as [G C]; [left; cbn; tauto|]. destruct (GenConjugationKey_ok (ppQ b) WF B (fun _ => e id) (fun _ => smp id) crs _ (sk id) (s id) HB (fun _ _ => SE id) (SV id) G C) as (k & A & _). exists k. exact A. }
    set (rl := fun id => match bGenRelinearizationKey b crs (sk id) (genSecretKeyFromSampler (ppQ b) id (rows_of (ppQ b) (r id))) (fun _ => smp id) (fun _ => smp id) (fun _ => smp id) (fun _ => smp id) (fun _ => smp id) with Ok k => k | Panic => BRLK id nil nil nil nil nil end).
    set (rt := fun id i => match GenRotationKey (ppQ b) crs i (sk id) (fun _ => smp id) with Ok k => k | Panic => RTK id i nil end).
    set (cj := fun id => match GenConjugationKey (ppQ b) crs (sk id) (fun _ => smp id) with Ok k => k | Panic => CJK id nil end).
    set (pk := fun id => match GenPublicKey (ppQ b) crs (sk id) (smp id) with Ok k => k | Panic => PK id dQP dQP end).
    set (names := nodup string_dec P).
    assert (GET : forall (V : Type) (f : string -> V) id, mget seq_dec (map (fun x => (x, f x)) names) id = if in_dec string_dec id P then Some (f id) else None).
    { intros V f id. assert (X : forall l, mget seq_dec (map (fun x => (x, f x)) l) id = if in_dec string_dec id l then Some (f id) else None).
      { induction l as [|y l IH]; [reflexivity|]. cbn [map mget]. destruct (seq_dec id y) as [->|NE]; [destruct (in_dec string_dec y (y :: l)) as [|NI]; [reflexivity|exfalso; apply NI; left; reflexivity]|].
        rewrite IH. destruct (in_dec string_dec id l) as [I|I]; destruct (in_dec string_dec id (y :: l)) as [J|J]; try reflexivity; [exfalso; apply J; right; exact I|]. destruct J as [J|J]; [congruence|contradiction]. }
      rewrite X. destruct (in_dec string_dec id names) as [I|I]; destruct (in_dec string_dec id P) as [J|J]; try reflexivity; exfalso; unfold names in I; rewrite nodup_In in I; contradiction. }
    exists (map (fun x => (x, rl x)) names), (map (fun x => (x, map (fun i => (i, rt x i)) (defaults logN))) names), (map (fun x => (x, cj x)) names), (map (fun x => (x, sk x)) names), pk.
    split; [|split].
    - unfold mwf, keys. rewrite map_map. cbn [fst]. rewrite map_id. apply NoDup_nodup.
    - intros id k H. rewrite (GET _ (fun x => sk x)) in H. destruct (in_dec string_dec id P) as [I|I]; [exact I|discriminate H].
    - intros id Hid. exists (rows_of (ppQ b) (s id)), (rows_of (ppQ b) (r id)), (fun _ => smp id), (fun _ => smp id), (fun _ => smp id), (fun _ => smp id), (fun _ => smp id), (smp id), (fun _ => e id), (fun _ => e id), (fun _ => e id), (e id).
      split; [apply SS|]. split; [apply SR|]. split; [apply SE|]. split; [intros k _; do 4 (split; [apply SE|]); apply SE|]. cbv zeta. split; [|split; [|split; [|split]]].
      + rewrite (GET _ (fun x => sk x)). destruct (in_dec string_dec id P) as [I|I]; [reflexivity|contradiction].
      + destruct (HPK id) as [k A]. unfold pk. rewrite A. reflexivity.
      + destruct (HRL id) as [k A]. unfold brlk_get. rewrite (GET _ rl). destruct (in_dec string_dec id P) as [I|I]; [|contradiction]. unfold rl. rewrite A. reflexivity.
      + intros i Hi. exists (fun _ => smp id), (fun _ => e id). split; [intros j _; apply SE|]. destruct (HRT id i Hi) as [k A]. unfold rk_get. rewrite (GET _ (fun x => map (fun i => (i, rt x i)) (defaults logN))). destruct (in_dec string_dec id P) as [I|I]; [|contradiction].
        assert (Y : mget Z.eq_dec (map (fun i => (i, rt id i)) (defaults logN)) i = Some (rt id i)).
        { clear - Hi. induction (defaults logN) as [|y l IH]; [destruct Hi|]. cbn [map mget]. destruct (Z.eq_dec i y) as [->|NE]; [reflexivity|]. apply IH. destruct Hi as [Hi|Hi]; [congruence|exact Hi]. }
        rewrite Y. unfold rt. rewrite A. reflexivity.
      + exists (fun _ => smp id), (fun _ => e id). split; [intros j _; apply SE|]. destruct (HCJ id) as [k A]. unfold ks_get. rewrite (GET _ cj). destruct (in_dec string_dec id P) as [I|I]; [|contradiction]. unfold cj. rewrite A. reflexivity.
  Qed.
End Setup.

(** the encoder's rounding meets the input hypothesis for every message *)
Lemma rounding_encoded N b (m : R N) : wfb N b -> 0 < bT b -> bencoded b (bT b) m (Pol (rows_of (ppQ b) (mkR (fun i => (2 * (qprod b * co m i) + bT b) / (2 * bT b)))) false).
Proof.
  intros WB TP. pose proof (wf_ppQ b WB) as WF. set (X := mkR _).
  assert (SM : forall j, (j <= maxLevel (ppQ b))%nat -> inr (Qi (ppQ b) j) (row (rows_of (ppQ b) X) j) /\ eqm (mq (Qi (ppQ b) j)) (row (rows_of (ppQ b) X) j) X) by (destruct (any_bnd X) as [C HC]; apply (rows_of_sample (ppQ b) N C X WF HC)).
  assert (L : forall j, (j < length (bQ b))%nat -> (j <= maxLevel (ppQ b))%nat) by (intros j Hj; unfold maxLevel; change (Qm (ppQ b)) with (bQ b); lia).
  split; [unfold rows_of; cbn [prows]; rewrite tab_length; reflexivity|]. split; [reflexivity|]. split; [intros j Hj; apply SM; apply L; exact Hj|].
  exists X, R0, (sub (smul (bT b) X) (smul (qprod b) m)). split; [intros j Hj; apply SM; apply L; exact Hj|]. split.
  - apply R_ext. intros i Hi. rewrite ?co_add, ?co_sub, ?co_smul, ?co_add, ?co_smul, ?co_R0. ring.
  - intros i Hi. rewrite co_sub, !co_smul. unfold X. rewrite co_mkR by exact Hi.
    set (y := qprod b * co m i). pose proof (Z.div_mod (2 * y + bT b) (2 * bT b) ltac:(lia)) as DM. pose proof (Z.mod_pos_bound (2 * y + bT b) (2 * bT b) ltac:(lia)) as MB. set (q := (2 * y + bT b) / (2 * bT b)) in *. apply Z.abs_le. lia.
Qed.

(** everything NewParameters sets up: the CRS made from any words of the uniform samplers, the default rotation keys. No condition on the rotation amounts of the program is left. *)
Theorem C50_bfv15_default : forall (u : Z -> nat -> polyQP N15) (rs : brlkset N15) (rk : rotset N15) (ck : conjset N15) sks (pk : string -> publicKey N15) (s r : string -> R N15) (P : list string)
  (w : nat -> nat -> IdSetModel.order) (oe : nat -> list string -> list string) (o : IdSetModel.order) (ins : list (binput N15)) prog a,
  (forall i j, (j < 14)%nat -> wordsQP (ppQ bfv15) (u i j)) -> let crs := NewCRS (ppQ bfv15) 15 u in
  (forall n m, order_ok (w n m)) -> (forall n, ord1_ok (oe n)) -> order_ok o ->
  mwf sks -> (forall id k, mget seq_dec sks id = Some k -> In id P) -> (length P <= 64)%nat ->
  (forall id, In id P -> id <> id0 /\ bgenerated bfv15 19 1 crs rs rk ck sks (defaults 15) pk id (s id) (r id)) ->
  (forall x, In x ins -> In (bi_id x) P /\ binput_ok bfv15 19 1 65537 x) ->
  bvalid (length ins) prog -> (a < length ins + length prog)%nat -> nth a (bcost_run 55 prog (map (fun _ => 41) ins)) 0 <= 758 ->
  exists cs p, bsession bfv15 crs rs rk ck pk w oe ins prog = Ok cs /\ bDecrypt (ppQ bfv15) o (nth a cs nil) sks = Ok p /\ (exists X, residues (Qs (ppQ bfv15)) (prows p) X) /\
    forall X i, residues (Qs (ppQ bfv15)) (prows p) X -> (i < N15)%nat -> (65537 | (2 * (65537 * co X i) + qprod bfv15) / (2 * qprod bfv15) - co (nth a (bplain_run prog (map bi_m ins)) R0) i).
Proof.
  intros u rs rk ck sks pk s r P w oe o ins prog a HU crs O OE OD MW HS HP HG HI V Ha HV. destruct C50_bfv15_wf as [WB HD].
  apply (C50_bfv15_program crs rs rk ck sks pk s r P (defaults 15) w oe o ins prog a); trivial.
  - apply (crs_setup bfv15 WB 15 ltac:(lia) u). rewrite beta15. exact HU.
  - apply (crs_rots bfv15 HD 15 N15_pow ltac:(lia) u).
Qed.
Print Assumptions C50_bfv15_default.
Theorem C50_bfv14_default : forall (u : Z -> nat -> polyQP N14) (rs : brlkset N14) (rk : rotset N14) (ck : conjset N14) sks (pk : string -> publicKey N14) (s r : string -> R N14) (P : list string)
  (w : nat -> nat -> IdSetModel.order) (oe : nat -> list string -> list string) (o : IdSetModel.order) (ins : list (binput N14)) prog a,
  (forall i j, (j < 6)%nat -> wordsQP (ppQ bfv14) (u i j)) -> let crs := NewCRS (ppQ bfv14) 14 u in
  (forall n m, order_ok (w n m)) -> (forall n, ord1_ok (oe n)) -> order_ok o ->
  mwf sks -> (forall id k, mget seq_dec sks id = Some k -> In id P) -> (length P <= 64)%nat ->
  (forall id, In id P -> id <> id0 /\ bgenerated bfv14 19 1 crs rs rk ck sks (defaults 14) pk id (s id) (r id)) ->
  (forall x, In x ins -> In (bi_id x) P /\ binput_ok bfv14 19 1 65537 x) ->
  bvalid (length ins) prog -> (a < length ins + length prog)%nat -> nth a (bcost_run 53 prog (map (fun _ => 40) ins)) 0 <= 317 ->
  exists cs p, bsession bfv14 crs rs rk ck pk w oe ins prog = Ok cs /\ bDecrypt (ppQ bfv14) o (nth a cs nil) sks = Ok p /\ (exists X, residues (Qs (ppQ bfv14)) (prows p) X) /\
    forall X i, residues (Qs (ppQ bfv14)) (prows p) X -> (i < N14)%nat -> (65537 | (2 * (65537 * co X i) + qprod bfv14) / (2 * qprod bfv14) - co (nth a (bplain_run prog (map bi_m ins)) R0) i).
Proof.
  intros u rs rk ck sks pk s r P w oe o ins prog a HU crs O OE OD MW HS HP HG HI V Ha HV. destruct C50_bfv14_wf as [WB HD].
  apply (C50_bfv14_program crs rs rk ck sks pk s r P (defaults 14) w oe o ins prog a); trivial.
  - apply (crs_setup bfv14 WB 14 ltac:(lia) u). rewrite beta14. exact HU.
  - apply (crs_rots bfv14 HD 14 N14_pow ltac:(lia) u).
Qed.
Print Assumptions C50_bfv14_default.

(** non-vacuity: for every list of parties, every CRS, all ternary secrets and errors up to 19 the keys of the hypothesis exist, and every message has an input record that meets it *)
Theorem C50_nonvacuous15 : forall (u : Z -> nat -> polyQP N15) (P : list string) (s r e : string -> R N15), (forall i j, (j < 14)%nat -> wordsQP (ppQ bfv15) (u i j)) ->
  (forall id, bnd (s id) 1) -> (forall id, bnd (r id) 1) -> (forall id, bnd (e id) 19) ->
  (exists (rs : brlkset N15) (rk : rotset N15) (ck : conjset N15) sks pk, mwf sks /\ (forall id k, mget seq_dec sks id = Some k -> In id P) /\
    forall id, In id P -> bgenerated bfv15 19 1 (NewCRS (ppQ bfv15) 15 u) rs rk ck sks (defaults 15) pk id (s id) (r id)) /\
  forall id m, exists x : binput N15, bi_id x = id /\ bi_m x = m /\ binput_ok bfv15 19 1 65537 x.
Proof.
  intros u P s r e HU Hs Hr He. destruct C50_bfv15_wf as [WB HD]. destruct small15 as [S1 S2]. split.
  - apply (setup bfv15 WB HD 15 N15_pow ltac:(lia) u ltac:(rewrite beta15; exact HU) 19 1 S1 S2 s r e Hs Hr He P).
  - intros id m. assert (ST : is_sample (ppQ bfv15) 1 (s id) (rows_of (ppQ bfv15) (s id))) by (apply (rows_of_sample (ppQ bfv15) N15 1 (s id) (wf_ppQ bfv15 WB) (Hs id))).
    assert (SE : is_sample (ppQ bfv15) 19 (e id) (rows_of (ppQ bfv15) (e id))) by (apply (rows_of_sample (ppQ bfv15) N15 19 (e id) (wf_ppQ bfv15 WB) (He id))).
    exists (BIn N15 id m (Pol (rows_of (ppQ bfv15) (mkR (fun i => (2 * (qprod bfv15 * co m i) + bT bfv15) / (2 * bT bfv15)))) false) (rows_of (ppQ bfv15) (s id)) (rows_of (ppQ bfv15) (e id)) (rows_of (ppQ bfv15) (e id))).
    split; [reflexivity|]. split; [reflexivity|]. split; [apply (rounding_encoded N15 bfv15 m WB); reflexivity|]. exists (s id), (e id), (e id). split; [exact ST|]. split; exact SE.
Qed.
Print Assumptions C50_nonvacuous15.
(** a concrete program within the budget: ten parties, the product of the ten inputs one after the other, a rotation, a conjugation, and the sum of both *)
Definition shipped_prog : list binstr := BMul 0 1 :: map (fun k => BMul (10 + k) (2 + k)) (seq 0 8) ++ [BRot 18 (-5); BConj 18; BAdd 19 20].
Theorem C50_nonvacuous_prog : bvalid 10 shipped_prog /\ forall ins : list (binput N15), length ins = 10%nat -> nth 21 (bcost_run 55 shipped_prog (map (fun _ => 41) ins)) 0 = 538.
Proof.
  split; [cbn; repeat (split; [intros ? H; repeat (destruct H as [H|H]; [subst; lia|]); destruct H|]); exact Logic.I|].
  intros ins H. replace (map (fun _ => 41) ins) with (repeat 41 10); [vm_compute; reflexivity|].
  rewrite <- H. clear H. induction ins as [|x l IH]; [reflexivity|]. cbn [length repeat map]. f_equal. exact IH.
Qed.
