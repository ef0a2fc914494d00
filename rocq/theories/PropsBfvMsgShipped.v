(** C62 with the BFV parameter sets of the repository: the noise condition becomes a count of bits (PropsShipped.v: a fresh ciphertext costs c0 bits, a product cM more than its larger operand, every other
    call one more, CopyNew nothing). *)
From Verif Require Import Base IdSetModel KeySetModel NumTheory Pock Negacyclic Ntt Word BasisExt BasisExtProofs DecompProofs BasisSpec Rows RlweModel SchemeSpec ExtProd ExtProps KeyGenModel Galois KeyGenProofs CtModel CtSpec CtProofs EncDecProofs EncMsgModel KeySwitchModel Digits KsLoops RotProofs ConjProofs MulProofs Instance PropsEnc PropsRotate PropsKeySwitch FloatModel CkksFloat CkksModel BfvModel PropsBfv BfvMulModel BfvConv BfvGadget BfvDig BfvKey BfvCross BfvMulProofs PropsBfvConv PropsBfvMul HeapModel HeapEval HeapBfv PropsHeapBfv BfvCircuit EncFresh PropsBfvCircuit PropsIndex Shipped PropsShipped BfvMsg BfvMsgSlots PropsBfvMsg.
From Coq Require Import Znumtheory.
Open Scope Z_scope.

Definition mcost (cM : Z) (i : minstr) (cs : list Z) : Z := match i with MCall i => bcost cM i cs | MCopy a => nth a cs 0 end.
Definition mcost_run (cM : Z) (prog : list minstr) (cs : list Z) : list Z := fold_left (fun cs i => cs ++ [mcost cM i cs]) prog cs.

Section MBudget.
  Context {N : nat} (b : bparams) (crs : crsT N) (B T c0 cM top : Z) (P : list string).
  Hypothesis STEP : forall i ids Vs cs, binv c0 top P ids Vs cs -> (forall a, In a (bargs i) -> (a < length cs)%nat) -> binv c0 top P (ids ++ [bids i ids]) (Vs ++ [bnoise b crs B T i ids Vs]) (cs ++ [bcost cM i cs]).
  Lemma mstep i ids Vs cs : binv c0 top P ids Vs cs -> (forall a, In a (margs i) -> (a < length cs)%nat) -> binv c0 top P (ids ++ [mids i ids]) (Vs ++ [mnoise b crs B T i ids Vs]) (cs ++ [mcost cM i cs]).
  Proof.
    intros H HV. destruct i as [i|a]; [apply STEP; assumption|]. cbn [mids mnoise mcost margs In] in *. specialize (HV a (or_introl eq_refl)). destruct H as (L1 & L2 & H).
    split; [rewrite !app_length; cbn; lia|]. split; [rewrite !app_length; cbn; lia|]. intros x Hx. rewrite app_length in Hx. cbn [length] in Hx. rewrite !nth_snoc, L1, L2.
    destruct (Nat.ltb_spec x (length cs)) as [La|La]; [apply H; exact La|]. destruct (Nat.eqb_spec x (length cs)) as [_|NE]; [|lia]. apply H. exact HV.
  Qed.
  Lemma mrun_cost prog : forall ids Vs cs, binv c0 top P ids Vs cs -> mvalid (length cs) prog -> binv c0 top P (mids_run prog ids) (mnoise_run b crs B T prog ids Vs) (mcost_run cM prog cs).
  Proof.
    induction prog as [|i prog IH]; intros ids Vs cs H V; [exact H|]. destruct V as [V1 V2]. cbn [mids_run mcost_run mnoise_run fold_left]. apply IH; [apply mstep; assumption|]. rewrite app_length. cbn [length]. rewrite Nat.add_comm. exact V2.
  Qed.
  Lemma mrun_len prog : forall cs : list Z, length (mcost_run cM prog cs) = (length cs + length prog)%nat.
  Proof using. clear. induction prog as [|i prog IH]; intros cs; cbn [mcost_run fold_left length]; [lia|]. fold (mcost_run cM prog (cs ++ [mcost cM i cs])). rewrite IH, app_length. cbn. lia. Qed.
  Lemma mbudget D (ins : list (minput N)) prog a : 0 <= c0 -> bfresh_noise N b B T D <= 2 ^ c0 -> 0 <= bfresh_noise N b B T D -> 2 * 2 ^ top < qprod b -> (forall x, In x ins -> In (mi_id x) P) -> mvalid (length ins) prog -> (a < length ins + length prog)%nat ->
    nth a (mcost_run cM prog (map (fun _ => c0) ins)) 0 <= top ->
    2 * nth a (mnoise_run b crs B T prog (map (fun x => [mi_id x]) ins) (map (fun _ => bfresh_noise N b B T D) ins)) 0 < qprod b.
  Proof.
    intros C0 HF HF0 HQ HI V Ha HT'.
    assert (I0 : binv c0 top P (map (fun x => [mi_id x]) ins) (map (fun _ => bfresh_noise N b B T D) ins) (map (fun _ => c0) ins)).
    { split; [rewrite !map_length; reflexivity|]. split; [rewrite !map_length; reflexivity|]. intros x Hx. rewrite map_length in Hx.
      destruct (nth_error ins x) as [y|] eqn:E; [|apply nth_error_None in E; lia]. rewrite !(nth_map_in _ _ _ _ _ E).
      split; [repeat constructor; intros []|]. split; [intros z [<-|[]]; apply HI; apply (nth_error_In _ _ E)|]. split; [lia|]. intros _. lia. }
    apply (mrun_cost prog) in I0; [|rewrite map_length; exact V]. destruct I0 as (_ & _ & I). destruct (I a) as (_ & _ & C1 & C2); [rewrite mrun_len, map_length; exact Ha|].
    specialize (C2 HT'). pose proof (Z.pow_le_mono_r 2 (nth a (mcost_run cM prog (map (fun _ => c0) ins)) 0) top ltac:(lia) HT'). lia.
  Qed.
End MBudget.

Lemma mcrs_rots {N} (b : bparams) (HD : (length (bQ b) mod alpha (ppQ b) = 0)%nat) logN (EN : N = (2 ^ logN)%nat) (HL : (0 < logN)%nat) u prog : mrots (N := N) (NewCRS (ppQ b) logN u) prog (defaults logN).
Proof. intros i k j H. apply (crs_rots b HD logN EN HL u [BRot i k] i k j). left. reflexivity. Qed.

(** PN15QP880, t = 65537: up to 64 parties, any program, everything as NewParameters sets it up *)
Theorem C62_bfv15 : forall root (u : Z -> nat -> polyQP N15) (rs : brlkset N15) (rk : rotset N15) (ck : conjset N15) sks (pk : string -> publicKey N15) (s r : string -> R N15) (P : list string)
  (w : nat -> nat -> IdSetModel.order) (oe : nat -> list string -> list string) (o : IdSetModel.order) (ins : list (minput N15)) prog,
  okm (N := N15) (Mod 65537 root) -> (forall i j, (j < 14)%nat -> wordsQP (ppQ bfv15) (u i j)) -> let crs := NewCRS (ppQ bfv15) 15 u in
  (forall n m, order_ok (w n m)) -> (forall n, ord1_ok (oe n)) -> order_ok o ->
  mwf sks -> (forall id k, mget seq_dec sks id = Some k -> In id P) -> (length P <= 64)%nat ->
  (forall id, In id P -> id <> id0 /\ bgenerated bfv15 19 1 crs rs rk ck sks (defaults 15) pk id (s id) (r id)) ->
  (forall x, In x ins -> In (mi_id x) P /\ minput_ok bfv15 19 1 x) -> mvalid (length ins) prog ->
  exists cs h, mencrypt bfv15 root pk oe ins = Ok cs /\ mserver bfv15 crs rs rk ck w cs prog = Ok h /\ length (bcontents h) = (length ins + length prog)%nat /\
    forall a c, nth_error (bcontents h) a = Some c -> nth a (mcost_run 55 prog (map (fun _ => 41) ins)) 0 <= 758 ->
      exists msg, bDecryptMsg bfv15 root o c sks = Ok msg /\ length msg = N15 /\
        forall j, (j < N15)%nat -> 2 * Z.abs (nth j msg 0) < 65537 /\ (65537 | nth j msg 0 - nth a (mplain_run N15 prog (map mvec ins)) zvec j).
Proof.
  intros root u rs rk ck sks pk s r P w oe o ins prog OKT HU crs O OE OD MW HS HP HG HI V. destruct C50_bfv15_wf as [WB HD]. destruct small15 as [S1 S2]. destruct num15 as (E1 & E2 & E3 & [E4 E5] & E6).
  destruct (C62_end_to_end N15 bfv15 root 19 1 crs rs rk ck sks pk s r P (defaults 15) w oe o ins prog) as (cs & h & C1 & C2 & C3 & C4); trivial.
  - apply (crs_setup bfv15 WB 15 ltac:(lia) u). rewrite beta15. exact HU.
  - apply (mcrs_rots bfv15 HD 15 N15_pow ltac:(lia) u).
  - exists cs, h. split; [exact C1|]. split; [exact C2|]. split; [exact C3|]. intros a c Ea HV. apply (C4 a c Ea).
    pose proof (step_cost bfv15 WB HD crs 64 19 1 41 55 758 ltac:(lia) ltac:(lia) ltac:(lia) ltac:(lia) E1 E2 E3 P HP) as ST.
    apply (mbudget bfv15 crs 19 1 41 55 758 P ST (bT bfv15) ins prog a ltac:(lia) E5 E4 E6 (fun x Hx => proj1 (HI x Hx)) V); [|exact HV]. rewrite <- C3. apply nth_error_Some. congruence.
Qed.
(** PN14QP439 *)
Theorem C62_bfv14 : forall root (u : Z -> nat -> polyQP N14) (rs : brlkset N14) (rk : rotset N14) (ck : conjset N14) sks (pk : string -> publicKey N14) (s r : string -> R N14) (P : list string)
  (w : nat -> nat -> IdSetModel.order) (oe : nat -> list string -> list string) (o : IdSetModel.order) (ins : list (minput N14)) prog,
  okm (N := N14) (Mod 65537 root) -> (forall i j, (j < 6)%nat -> wordsQP (ppQ bfv14) (u i j)) -> let crs := NewCRS (ppQ bfv14) 14 u in
  (forall n m, order_ok (w n m)) -> (forall n, ord1_ok (oe n)) -> order_ok o ->
  mwf sks -> (forall id k, mget seq_dec sks id = Some k -> In id P) -> (length P <= 64)%nat ->
  (forall id, In id P -> id <> id0 /\ bgenerated bfv14 19 1 crs rs rk ck sks (defaults 14) pk id (s id) (r id)) ->
  (forall x, In x ins -> In (mi_id x) P /\ minput_ok bfv14 19 1 x) -> mvalid (length ins) prog ->
  exists cs h, mencrypt bfv14 root pk oe ins = Ok cs /\ mserver bfv14 crs rs rk ck w cs prog = Ok h /\ length (bcontents h) = (length ins + length prog)%nat /\
    forall a c, nth_error (bcontents h) a = Some c -> nth a (mcost_run 53 prog (map (fun _ => 40) ins)) 0 <= 317 ->
      exists msg, bDecryptMsg bfv14 root o c sks = Ok msg /\ length msg = N14 /\
        forall j, (j < N14)%nat -> 2 * Z.abs (nth j msg 0) < 65537 /\ (65537 | nth j msg 0 - nth a (mplain_run N14 prog (map mvec ins)) zvec j).
Proof.
  intros root u rs rk ck sks pk s r P w oe o ins prog OKT HU crs O OE OD MW HS HP HG HI V. destruct C50_bfv14_wf as [WB HD]. destruct small14 as [S1 S2]. destruct num14 as (E1 & E2 & E3 & [E4 E5] & E6).
  destruct (C62_end_to_end N14 bfv14 root 19 1 crs rs rk ck sks pk s r P (defaults 14) w oe o ins prog) as (cs & h & C1 & C2 & C3 & C4); trivial.
  - apply (crs_setup bfv14 WB 14 ltac:(lia) u). rewrite beta14. exact HU.
  - apply (mcrs_rots bfv14 HD 14 N14_pow ltac:(lia) u).
  - exists cs, h. split; [exact C1|]. split; [exact C2|]. split; [exact C3|]. intros a c Ea HV. apply (C4 a c Ea).
    pose proof (step_cost bfv14 WB HD crs 64 19 1 40 53 317 ltac:(lia) ltac:(lia) ltac:(lia) ltac:(lia) E1 E2 E3 P HP) as ST.
    apply (mbudget bfv14 crs 19 1 40 53 317 P ST (bT bfv14) ins prog a ltac:(lia) E5 E4 E6 (fun x Hx => proj1 (HI x Hx)) V); [|exact HV]. rewrite <- C3. apply nth_error_Some. congruence.
Qed.

(** the hypotheses can be met: roots of unity modulo t, keys (C50_nonvacuous15), and an input record for every message of the sizes the encoder takes *)
Theorem C62_nonvacuous15 : okm (N := N15) (Mod 65537 3) /\ okm (N := N14) (Mod 65537 9) /\
  (forall (u : Z -> nat -> polyQP N15) (P : list string) (s r e : string -> R N15), (forall i j, (j < 14)%nat -> wordsQP (ppQ bfv15) (u i j)) ->
    (forall id, bnd (s id) 1) -> (forall id, bnd (r id) 1) -> (forall id, bnd (e id) 19) ->
    (exists (rs : brlkset N15) (rk : rotset N15) (ck : conjset N15) sks pk, mwf sks /\ (forall id k, mget seq_dec sks id = Some k -> In id P) /\
      forall id, In id P -> bgenerated bfv15 19 1 (NewCRS (ppQ bfv15) 15 u) rs rk ck sks (defaults 15) pk id (s id) (r id)) /\
    forall id vals, (length vals <= N15)%nat -> Forall (fun v => -65537 <= v < 65537) vals -> exists x : minput N15, mi_id x = id /\ mi_v x = vals /\ minput_ok bfv15 19 1 x).
Proof.
  assert (P65 : prime 65537) by (apply is_prime_ok; vm_compute; reflexivity).
  split; [apply (shipped_mod15 65537 3 P65); vm_compute; reflexivity|]. split; [apply (shipped_mod14 65537 9 P65); vm_compute; reflexivity|].
  intros u P s r e HU Hs Hr He. destruct (C50_nonvacuous15 u P s r e HU Hs Hr He) as [K I]. split; [exact K|]. intros id vals LV FV. destruct (I id R0) as (x & _ & _ & _ & SM).
  exists (MIn N15 id vals (bi_su x) (bi_s0 x) (bi_s1 x)). split; [reflexivity|]. split; [reflexivity|]. split; [exact LV|]. split; [exact FV|]. exact SM.
Qed.
