(** C62: mkbfv from messages to messages.  Parties encrypt vectors of integers with EncryptMsgNew, a server runs any program of CopyNew and Evaluator calls on shared storage,
    and Decrypt of every ciphertext it holds returns the vector the program computes modulo t.
    Encoder, programs and their meaning on vectors: BfvMsg.v. *)
From Verif Require Import Base IdSetModel KeySetModel NumTheory Negacyclic Ntt Word BasisExt BasisExtProofs DecompProofs BasisSpec Rows RlweModel SchemeSpec ExtProd ExtProps KeyGenModel Galois KeyGenProofs CtModel CtSpec CtProofs EncDecProofs EncMsgModel KeySwitchModel Digits KsLoops RotProofs ConjProofs MulProofs Instance PropsEnc PropsRotate PropsKeySwitch FloatModel CkksFloat CkksModel BfvModel PropsBfv BfvMulModel BfvConv BfvGadget BfvDig BfvKey BfvCross BfvMulProofs PropsBfvConv PropsBfvMul HeapModel HeapEval HeapBfv PropsHeapBfv BfvCircuit EncFresh PropsBfvCircuit PropsShipped BfvMsg BfvMsgSlots.
From Coq Require Import Znumtheory Setoid Morphisms.
Open Scope Z_scope.

Section Run.
  Context {N : nat} (b : bparams) (WB : wfb N b) (HD : (length (bQ b) mod alpha (ppQ b) = 0)%nat) (root : Z) (OKT : okm (N := N) (Mod (bT b) root)) (k : nat) (HN : N = (2 ^ (k + 1))%nat).
  Notation R := (R N). Notation ct := (ctT N). Notation L := (maxLevel (ppQ b)). Notation t := (bT b).
  Variables (crs : crsT N) (rs : brlkset N) (rk : rotset N) (ck : conjset N) (s r : string -> R) (B T : Z) (P : list string).
  Notation env := (HBE crs rs rk ck).

  Definition mplainR (i : minstr) (ms : list R) : R := match i with MCall i => bplain i ms | MCopy a => nth a ms R0 end.
  Definition mready (i : minstr) : Prop := match i with MCall i => bready b crs rs rk ck s r B T P i | MCopy _ => True end.

  Lemma plain_carries i (ms : list R) vs : (forall a, In a (margs i) -> carries t root (nth a ms R0) (nth a vs zvec)) -> carries t root (mplainR i ms) (mplain N i vs).
  Proof using OKT HN.
    intros H. destruct i as [[i j|i j|i j|i kk|i]|i]; cbn [mplainR mplain bplain margs bargs In] in *.
    - apply (carries_add t root OKT k HN); apply H; tauto.
    - apply (carries_sub t root OKT k HN); apply H; tauto.
    - apply (carries_mul t root OKT k HN); apply H; tauto.
    - apply (carries_rot t root OKT k HN). apply H. tauto.
    - apply (carries_conj t root OKT k HN). apply H. tauto.
    - apply H. tauto.
  Qed.

  Lemma mcall_ok (o : nat -> IdSetModel.order) (i : minstr) (regs : list ct) ids ms Vs : (forall n, order_ok (o n)) -> mready i -> (forall a, In a (margs i) -> (a < length regs)%nat) ->
    (forall a, (a < length regs)%nat -> breg b s P (nth a regs nil) (nth a ids nil) (nth a ms R0) (nth a Vs 0)) ->
    exists c, vbcall b env o regs (hbop_of i) = Ok (regs ++ [c]) /\ breg b s P c (mids i ids) (mplainR i ms) (mnoise b crs B T i ids Vs).
  Proof using WB HD.
    intros O HR HA HI. destruct i as [i|a].
    - destruct (bcall_ok b WB HD crs rs rk ck s r B T P o i regs ids ms Vs O HR HA HI) as (c & C1 & C2). exists c. split; [|exact C2].
      destruct i as [i j|i j|i j|i kk|i]; cbn [bcall hbop_of vbcall hb_crs hb_rlk hb_rot hb_cj] in *; destruct (idx regs i) as [x|]; cbn [rbind] in *; try discriminate C1; try (destruct (idx regs j) as [y|]; cbn [rbind] in *; try discriminate C1); rewrite C1; reflexivity.
    - cbn [hbop_of vbcall mids mplainR mnoise margs In] in *. specialize (HA a (or_introl eq_refl)). unfold BasisExt.idx. rewrite (nth_error_nth' regs nil HA). cbn [rbind].
      destruct (HI a HA) as (W & K & ND & IN & (X & v & w & E1 & E2 & E3)). destruct (CopyNew_ok (o 0%nat 0%nat) (nth a regs nil)) as (c & C1 & C2 & C3); [intros l; apply O|apply W|apply W|]. rewrite C1. cbn [rbind]. exists c. split; [reflexivity|].
      assert (KE : forall x, In x (keys c) <-> In x (keys (nth a regs nil))) by (intros x; rewrite <- !(mget_In_keys seq_dec), C3; reflexivity).
      split; [apply (wfct_ext (ppQ b) L false (nth a regs nil)); assumption|]. split; [intros x; rewrite <- K, !in_parties, KE; reflexivity|]. split; [exact ND|]. split; [exact IN|].
      exists X, v, w. split; [|split; assumption]. intros j Hj. rewrite (phase_ext (ppQ b) s c (nth a regs nil) j C2 (proj1 W) C3). apply E1. exact Hj.
  Qed.

  Lemma mrun_ok (w : nat -> nat -> IdSetModel.order) : (forall n m, order_ok (w n m)) -> forall prog n (regs : list ct) ids ms vs Vs, Forall mready prog -> mvalid (length regs) prog ->
    length ids = length regs -> length ms = length regs -> length vs = length regs -> length Vs = length regs ->
    (forall a, (a < length regs)%nat -> breg b s P (nth a regs nil) (nth a ids nil) (nth a ms R0) (nth a Vs 0) /\ carries t root (nth a ms R0) (nth a vs zvec)) ->
    exists regs' ms', vbrun b env w n (map hbop_of prog) regs = Ok regs' /\ length regs' = (length regs + length prog)%nat /\ (forall a, (a < length regs)%nat -> nth a regs' nil = nth a regs nil) /\
      forall a, (a < length regs')%nat -> breg b s P (nth a regs' nil) (nth a (mids_run prog ids) nil) (nth a ms' R0) (nth a (mnoise_run b crs B T prog ids Vs) 0) /\ carries t root (nth a ms' R0) (nth a (mplain_run N prog vs) zvec).
  Proof using WB HD OKT HN.
    intros O. induction prog as [|i prog IH]; intros n regs ids ms vs Vs F V L1 L2 L3 L4 H; cbn [map vbrun].
    - exists regs, ms. split; [reflexivity|]. split; [cbn; lia|]. split; [reflexivity|exact H].
    - inversion F as [|? ? F1 F2]; subst. destruct V as [V1 V2]. destruct (mcall_ok (w n) i regs ids ms Vs (O n) F1 V1 (fun a Ha => proj1 (H a Ha))) as (c & C1 & C2). rewrite C1. cbn [rbind].
      pose proof (plain_carries i ms vs (fun a Ha => proj2 (H a (V1 a Ha)))) as C3.
      destruct (IH (S n) (regs ++ [c]) (ids ++ [mids i ids]) (ms ++ [mplainR i ms]) (vs ++ [mplain N i vs]) (Vs ++ [mnoise b crs B T i ids Vs]) F2) as (regs' & ms' & R1 & R2 & R3 & R4).
      + rewrite app_length. cbn [length]. rewrite Nat.add_1_r. exact V2.
      + rewrite !app_length. cbn [length]. lia.
      + rewrite !app_length. cbn [length]. lia.
      + rewrite !app_length. cbn [length]. lia.
      + rewrite !app_length. cbn [length]. lia.
      + intros a Ha. rewrite app_length in Ha. cbn [length] in Ha. rewrite !nth_snoc, L1, L2, L3, L4. destruct (Nat.ltb_spec a (length regs)); [apply H; assumption|]. assert (a = length regs) by lia. subst a. rewrite Nat.eqb_refl. split; [exact C2|exact C3].
      + exists regs', ms'. split; [exact R1|]. split; [rewrite R2, app_length; cbn [length]; lia|]. split; [|exact R4].
        intros a Ha. rewrite R3 by (rewrite app_length; cbn [length]; lia). apply app_nth1. exact Ha.
  Qed.
End Run.

Lemma vbrun_put {N} b (e : hbenv N) (w : nat -> nat -> IdSetModel.order) (rest : list (hbop N)) : forall cs n cs0,
  vbrun b e w n (map (@BPut N) cs ++ rest) cs0 = vbrun b e w (n + length cs) rest (cs0 ++ cs).
Proof.
  induction cs as [|c cs IH]; intros n cs0; cbn [map app length vbrun vbcall rbind]; [rewrite app_nil_r, Nat.add_0_r; reflexivity|].
  rewrite IH, <- app_assoc. cbn [app]. f_equal. lia.
Qed.

(** *** hypotheses *)
(** a message: at most N int64 values from -t to t-1; the encryption randomness has the sizes of the samplers *)
Definition minput_ok {N} (b : bparams) (B T : Z) (x : minput N) : Prop :=
  (length (mi_v x) <= N)%nat /\ Forall (fun v => - bT b <= v < Z.min (bT b) (2 ^ 63)) (mi_v x) /\
  exists u e0 e1, is_sample (ppQ b) T u (mi_su x) /\ is_sample (ppQ b) B e0 (mi_s0 x) /\ is_sample (ppQ b) B e1 (mi_s1 x).
(** the rotation indices a program uses *)
Definition mrots {N} (crs : crsT N) (prog : list minstr) (rots : list Z) : Prop := forall i k j, In (MCall (BRot i k)) prog -> let q := k mod Z.of_nat (N / 2) in q <> 0 -> used_index crs q j -> In j rots.
(** the vector of a message: missing values are zero *)
Definition mvec {N} (x : minput N) : vec := fun j => nth j (mi_v x) 0.

Lemma rmapM_ext2 {A C} (f g : A -> res C) l : (forall x, In x l -> f x = g x) -> rmapM f l = rmapM g l.
Proof. induction l as [|x l IH]; intros H; [reflexivity|]. cbn [rmapM]. rewrite (H x (or_introl eq_refl)), IH; [reflexivity|]. intros y Hy. apply H. right. exact Hy. Qed.
Lemma nth_map_in {A C} (f : A -> C) l a x d : nth_error l a = Some x -> nth a (map f l) d = f x.
Proof. intros E. apply nth_error_nth. rewrite nth_error_map, E. reflexivity. Qed.

(** ** C62 *)
(** the rounding of the encoder: a message polynomial is encoded with rounding error at most t *)
Theorem C62_end_to_end : forall N b root B T crs (rs : brlkset N) (rk : rotset N) (ck : conjset N) sks (pk : string -> publicKey N) (s r : string -> R N) (P : list string) rots
  (w : nat -> nat -> IdSetModel.order) (oe : nat -> list string -> list string) (o : IdSetModel.order) (ins : list (minput N)) prog,
  wfb N b -> (length (bQ b) mod alpha (ppQ b) = 0)%nat -> okm (N := N) (Mod (bT b) root) ->
  (forall n m, order_ok (w n m)) -> (forall n, ord1_ok (oe n)) -> order_ok o -> small_ok (ppQ b) B -> small_ok (ppQ b) T ->
  (forall i, In i ([0; -1; -2; -3] ++ rots) -> exists c, mget Z.eq_dec crs i = Some c /\ crs_ok (ppQ b) c) ->
  mwf sks -> (forall id k, mget seq_dec sks id = Some k -> In id P) ->
  (forall id, In id P -> id <> id0 /\ bgenerated b B T crs rs rk ck sks rots pk id (s id) (r id)) ->
  (forall x, In x ins -> In (mi_id x) P /\ minput_ok b B T x) ->
  mvalid (length ins) prog -> mrots crs prog rots ->
  exists cs h, mencrypt b root pk oe ins = Ok cs /\ mserver b crs rs rk ck w cs prog = Ok h /\ length (bcontents h) = (length ins + length prog)%nat /\
    forall a c, nth_error (bcontents h) a = Some c ->
      (forall x, In x (parties c) <-> In x (nth a (mids_run prog (map (fun x => [mi_id x]) ins)) nil)) /\
      (2 * nth a (mnoise_run b crs B T prog (map (fun x => [mi_id x]) ins) (map (fun _ => bfresh_noise N b B T (bT b)) ins)) 0 < qprod b ->
       exists msg, bDecryptMsg b root o c sks = Ok msg /\ length msg = N /\
         forall j, (j < N)%nat -> 2 * Z.abs (nth j msg 0) < bT b /\ (bT b | nth j msg 0 - nth a (mplain_run N prog (map mvec ins)) zvec j)).
Proof.
  intros N b root B T crs rs rk ck sks pk s r P rots w oe o ins prog WB HD OKT O OE OD SM SMT HC MW HS HG HI V HR. pose proof (wf_ppQ b WB) as WF.
  assert (HNK : exists k, N = (2 ^ (k + 1))%nat).
  { destruct OKT as (_ & _ & (L & E) & _). destruct L as [|L]; [exfalso; pose proof (wf_N _ _ WF) as [N2 _]; cbn in E; lia|]. exists L. rewrite Nat.add_1_r. exact E. }
  destruct HNK as (k & HN).
  pose (poly_of := fun x : minput N => match EncodeRingT (N := N) b root (mi_v x) with Ok m => m | Panic => R0 end).
  pose (bin := fun x : minput N => BIn N (mi_id x) (poly_of x) (ScaleUp b (poly_of x)) (mi_su x) (mi_s0 x) (mi_s1 x)).
  assert (ENC : forall x, In x ins -> EncodeRingT b root (mi_v x) = Ok (poly_of x) /\ carries (bT b) root (poly_of x) (mvec x)).
  { intros x Hx. destruct (HI x Hx) as (_ & A1 & A2 & _). destruct (encode_ok b WB root OKT k HN (mi_v x) (conj A1 (Forall_impl _ (fun v (Hv : - bT b <= v < Z.min (bT b) (2 ^ 63)) => ltac:(lia) : - bT b <= v < 2 ^ 63) A2))) as (m & E1 & E2). unfold poly_of. rewrite E1. split; [reflexivity|exact E2]. }
  pose (bprog := flat_map (fun i => match i with MCall i => [i] | MCopy _ => nil end) prog).
  destruct (bend_setup N b B T (bT b) crs rs rk ck sks pk s r P rots oe (map bin ins) bprog) as ((cs & CS1 & CS2 & CS3) & RDY & KO & IK); trivial.
  { intros y Hy. apply in_map_iff in Hy as (x & <- & Hx). destruct (HI x Hx) as (A0 & _ & _ & A3). split; [exact A0|]. split; [|exact A3]. cbn [bin bi_m bi_pt]. apply (rounding_encoded N b (poly_of x) WB). apply (wb_t _ _ WB). }
  { intros i kk j I. apply (HR i kk j). unfold bprog in I. apply in_flat_map in I as ([i'|a] & I1 & I2); [destruct I2 as [->|[]]; exact I1|destruct I2]. }
  rewrite map_length in CS1, CS2, CS3.
  assert (EQ : mencrypt b root pk oe ins = Ok cs).
  { rewrite <- CS1. apply rmapM_ext2. intros kk Hk. apply in_seq in Hk. rewrite nth_error_map. destruct (nth_error ins kk) as [x|] eqn:EX; [|apply nth_error_None in EX; lia]. cbn [option_map bin bi_pt bi_id bi_su bi_s0 bi_s1].
    unfold bEncryptMsgNew, EncodeInt. rewrite (proj1 (ENC x (nth_error_In _ _ EX))). reflexivity. }
  assert (RD : Forall (mready b crs rs rk ck s r B T P) prog).
  { apply Forall_forall. intros [i|a] Hi; [|exact Logic.I]. rewrite Forall_forall in RDY. apply RDY. unfold bprog. apply in_flat_map. exists (MCall i). split; [exact Hi|left; reflexivity]. }
  assert (ST : forall a, (a < length cs)%nat -> breg b s P (nth a cs nil) (nth a (map (fun x => [mi_id x]) ins) nil) (nth a (map poly_of ins) R0) (nth a (map (fun _ => bfresh_noise N b B T (bT b)) ins) 0) /\
    carries (bT b) root (nth a (map poly_of ins) R0) (nth a (map mvec ins) zvec)).
  { intros a Ha. rewrite CS2 in Ha. pose proof (CS3 a Ha) as C. rewrite !map_map in C. cbn [bin bi_id bi_m] in C. split; [exact C|].
    destruct (nth_error ins a) as [x|] eqn:EX; [|apply nth_error_None in EX; lia]. rewrite !(nth_map_in _ _ _ _ _ EX). apply ENC. apply (nth_error_In _ _ EX). }
  destruct (mrun_ok b WB HD root OKT k HN crs rs rk ck s r B T P w O prog (0 + length cs) cs (map (fun x => [mi_id x]) ins) (map poly_of ins) (map mvec ins) (map (fun _ => bfresh_noise N b B T (bT b)) ins) RD) as (regs & ms & R1 & R2 & _ & R4);
    rewrite ?map_length, ?CS2; trivial; [rewrite CS2 in ST; exact ST|].
  pose proof (C56_values b (HBE crs rs rk ck) w (map (@BPut N) cs ++ map hbop_of prog) O) as HV. rewrite vbrun_put in HV. cbn [app] in HV. rewrite CS2 in R1. rewrite CS2, R1 in HV. destruct HV as (h & V1 & V2).
  exists cs, h. split; [exact EQ|]. split; [exact V1|]. rewrite V2. split; [rewrite R2, CS2; reflexivity|]. intros a c Ea.
  assert (Ha : (a < length regs)%nat) by (apply nth_error_Some; congruence). pose proof (R4 a Ha) as RG. pose proof (nth_error_nth _ _ (@nil (string * poly N)) Ea) as NC. fold (ctT N) in NC.
  assert (RG' : breg b s P c (nth a (mids_run prog (map (fun x => [mi_id x]) ins)) nil) (nth a ms R0) (nth a (mnoise_run b crs B T prog (map (fun x => [mi_id x]) ins) (map (fun _ => bfresh_noise N b B T (bT b)) ins)) 0) /\ carries (bT b) root (nth a ms R0) (nth a (mplain_run N prog (map mvec ins)) zvec)) by (rewrite <- NC; exact RG).
  clear RG. destruct RG' as ((W & K & ND & IN & E) & CA). split; [exact K|]. intros HV.
  destruct (C16_decrypt N (ppQ b) o c s sks WF OD W) as (p & P1 & P2 & P3).
  { destruct KO as [A C]. split; [exact A|]. intros id q Hk. destruct (C id q Hk) as [C1 C2]. split; [exact C1|]. intros _. apply C2. exact Logic.I. }
  { intros x Hx. apply IK. apply IN. apply K. exact Hx. }
  unfold bDecryptMsg. rewrite P1. cbn [rbind]. eexists. split; [reflexivity|]. pose proof (L_n b WB) as LN. pose proof E as E'. destruct E' as (X & v & wq & HX & _).
  apply (decode_ok b WB root OKT k HN p X (nth a ms R0)).
  - apply res_Q; [destruct P2 as [LP _]; rewrite LP, LN; reflexivity|]. intros j Hj. eapply eqm_trans; [apply P3; rewrite <- LN in Hj; lia|apply HX; exact Hj].
  - intros i Hi. apply (C40_rounds N b s c _ _ X i WB E HV); [|exact Hi]. intros j Hj. apply HX. exact Hj.
  - exact CA.
Qed.

