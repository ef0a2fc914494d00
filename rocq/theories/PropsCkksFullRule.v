(** C63: client programs over the whole CKKS interface with the parameter sets of the repository, with an explicit precision rule (CkksFullRule.v: grule). *)
From Flocq Require Import Core BinarySingleNaN.
From Coq Require Import Znumtheory Setoid Morphisms Reals Lra.
From Verif Require Import Base IdSetModel KeySetModel NumTheory Negacyclic Ntt Word BasisExt BasisExtProofs DecompProofs BasisSpec Rows RlweModel KeyGenModel SchemeSpec ExtProd ExtProps Galois KeyGenProofs CtModel CtSpec CtProofs EncDecProofs EncMsgModel KeySwitchModel Digits KsLoops RotProofs ConjProofs MulProofs PropsEnc PropsKeySwitch PropsRotate FloatModel CkksFloat CkksModel FloatProofs CkksFloatProofs CkksProofs CkksRescale PropsCkks PropsRescale PropsConst Slots PropsSlots CkksSlots CkksCircuit PropsCkksCircuit PropsCkksScale PropsIndex Shipped BfvModel BfvConv PropsBfvCircuit Instance BfvCross PropsShipped CkksBudget SlotNorm SlotEncode PropsCkksShipped HeapModel HeapProofs HeapEval CkksFull PropsCkksFull CkksFullRule.
Open Scope Z_scope.

(** a program the rule allows runs on storage without panic; every ciphertext the client holds at the end has the parties and the level of the rule, and each one without a pending Rescale whose
    slots and error fit decrypts within the error of the rule *)
Theorem C63_rule : forall N pp ps B T K S eta e1 cA cF cR cM cD cX MN cap mu eps crs (rs : rlkset N) (rk : rotset N) (ck : conjset N) sks (pk : string -> publicKey N) (s r : string -> R N) (P : list string) rots
  (w : nat -> nat -> IdSetModel.order) (oe : nat -> list string -> list string) (o : IdSetModel.order) (pt : poly N) pts pb zpts (ins : list (kinput N)) prog hrots bs',
  wfp N pp -> knumbers N pp ps B T K S eta e1 cA cF cR cM cD MN cap -> (3 <= cX * S)%R -> small_ok pp B -> small_ok pp T ->
  (forall n m, order_ok (w n m)) -> (forall n, ord1_ok (oe n)) -> order_ok o ->
  (forall i, In i ([0; -1; -2] ++ rots) -> exists c, mget Z.eq_dec crs i = Some c /\ crs_ok pp c) -> (forall q, In q hrots -> mget Z.eq_dec crs q <> None) ->
  mwf sks -> (forall id k, mget seq_dec sks id = Some k -> In id P) -> (length P <= K)%nat ->
  (forall id, In id P -> id <> id0 /\ kgenerated pp B T crs rs rk ck sks rots pk id (s id) (r id)) ->
  (0 <= mu)%R -> (0 <= eps)%R -> (forall x, In x ins -> In (ki_id x) P /\ exists M, kinput_ok pp ps B T M mu eps x) ->
  (forall p, (p < length pb)%nat -> (0 <= fst (nth p pb (0, 0)) /\ 0 <= snd (nth p pb (0, 0)))%R /\ exists x M, nth_error pts p = Some x /\ kplainreg pp x (KP ps M (fst (nth p pb (0, 0)%R)) (snd (nth p pb (0, 0)%R))) (nth p zpts zslots)) ->
  grots crs prog rots -> grules N ps (maxLevel pp) cA cR cM cD cX pb hrots (map (fun x => GB [ki_id x] (KB (maxLevel pp) mu (eps + cF)) false) ins) prog bs' -> plevel pt = maxLevel pp ->
  exists cs h, kencrypt pp ps pk oe ins = Ok cs /\ hclient pp ps crs rs rk ck pts w cs prog = Ok h /\ length (contents h) = length bs' /\
    forall a b, nth_error bs' a = Some b -> exists c, nth_error (contents h) a = Some c /\ ctLevel (cv c) = Ok (bl (gk b)) /\ (forall x, In x (parties (cv c)) <-> In x (gids b)) /\ fpos (csc c) /\
      (gdbl b = false -> (bmu (gk b) + berr (gk b) <= cap (bl (gk b)))%R -> exists p, Decrypt pp o (cv c) sks pt = Ok p /\ plevel p = bl (gk b) /\
        exists X, centred pp (bl (gk b)) (prows p) X /\ (forall Y, centred pp (bl (gk b)) (prows p) Y -> Y = X) /\
          forall j, (j < N / 2)%nat -> (cabs (csub (cscale (/ B2R (csc c)) (ckks_slot X j)) (nth a (gplain_run N zpts prog (map ki_z ins)) zslots j)) <= berr (gk b))%R).
Proof.
  intros N pp ps B T K S eta e1 cA cF cR cM cD cX MN cap mu eps crs rs rk ck sks pk s r P rots w oe o pt pts pb zpts ins prog hrots bs' WF [nB nT nS nH nQ nQ0 neta ne1 nA nD nF nR nMN nM ncap] HX SB ST O OE OD HC HHR MW HSK HP HG Hmu Heps HI HPT HR RU PL.
  destruct (plain_choice pp ps pts zpts pb HPT) as (pis & HPI & HPK).
  destruct (kinput_max pp ps B T mu eps ins) as [M HM]; [intros x Hx; apply (HI x Hx)|].
  set (ts := map (fun x => kfresh N pp ps B T M mu eps (ki_id x)) ins). set (bs := map (fun x => GB [ki_id x] (KB (maxLevel pp) mu (eps + cF)) false) ins) in *.
  assert (I0 : ginv pp P S e1 ts bs).
  { split; [unfold ts, bs; rewrite !map_length; reflexivity|]. intros x t b Hx Hb. unfold ts in Hx. unfold bs in Hb. rewrite nth_error_map in Hx, Hb. destruct (nth_error ins x) as [y|] eqn:E; [|discriminate Hx]. injection Hx as <-. injection Hb as <-.
    split; [intros z; reflexivity|]. cbn [gdbl gk]. eapply fresh_rel; eauto. apply (HI y). apply (nth_error_In _ _ E). }
  destruct (grules_rel pp WF ps crs B T nB nT K P HP S eta e1 cA cR cM cD cX MN nS nH nQ nQ0 neta ne1 nA nD HX nR nMN nM pis pb hrots HPI HHR bs prog bs' RU ts I0) as (ts' & STP & IL & IV).
  assert (FP : fpos ps) by (destruct nS as (S0 & S1 & S2); split; [exact S1|rewrite S0; lra]).
  destruct (C61_end_to_end N pp ps B T M mu eps crs rs rk ck sks pk s r P rots w oe o pt pts pis zpts ins prog ts') as (cs & h & A1 & A2 & A3 & A4); trivial.
  { intros x Hx. split; [apply (HI x Hx)|apply HM; exact Hx]. }
  exists cs, h. split; [exact A1|]. split; [exact A2|]. split; [rewrite A3; exact IL|]. intros a b Hb.
  destruct (nth_error ts' a) as [t|] eqn:Et; [|apply nth_error_None in Et; assert (a < length bs')%nat by (apply nth_error_Some; congruence); lia].
  destruct (A4 a t Et) as (c & C1 & C2 & C3 & C4 & C5). destruct (IV a t b Et Hb) as [G1 G2].
  assert (LV : klev t = bl (gk b)) by (destruct (gdbl b); apply G2). exists c. split; [exact C1|]. split; [rewrite <- LV; exact C3|]. split; [intros x; rewrite C4; apply G1|].
  split.
  { rewrite C2. destruct (gdbl b); [|apply G2]. destruct G2 as (_ & B2 & _ & _ & _ & _ & _ & s' & F1 & F2 & F3). rewrite F3. apply (dscale pp WF ps K P HP S eta e1 nS nQ neta ne1 s' (klev t) B2 F1 F2). }
  intros DB HCap. rewrite DB in G2.
  assert (CL : (99 / 100 * S <= B2R (ksc t) <= 101 / 100 * S)%R) by (apply (close pp ps K P HP S eta e1 nS ne1 _ (klev t)); apply G2).
  destruct G2 as (K1 & K2 & K3 & K4 & K5 & K6 & K7 & K8 & K9).
  assert (FT : fits pp t).
  { right. pose proof (ncap (klev t) K2) as C. rewrite K1 in C at 1. rewrite K3. eapply Rle_lt_trans; [|exact C].
    assert (Z0 : (0 <= bmu (gk b) + keps t <= cap (bl (gk b)))%R) by (rewrite <- K3; rewrite <- K3 in HCap; lra). rewrite Rmult_assoc. apply Rmult_le_compat_l; [lra|]. destruct nS as (_ & _ & S2). apply Rmult_le_compat; lra. }
  destruct (C5 FT) as (p & D1 & D2 & X & D3 & D4 & D5). rewrite <- LV. exists p. split; [exact D1|]. split; [exact D2|]. exists X. split; [exact D3|]. split; [exact D4|]. intros j Hj. eapply Rle_trans; [apply D5; exact Hj|apply K5].
Qed.
Print Assumptions C63_rule.

(** every rotation amount is served by the default keys *)
Lemma gcrs_rots {N} (pp : rparams) logN (u : Z -> nat -> polyQP N) prog : N = (2 ^ logN)%nat -> (0 < logN)%nat -> grots (NewCRS pp logN u) prog (defaults logN).
Proof. intros EN HL a k j _. apply (kcrs_rots pp logN EN HL u [KRot a k] a k j). left. reflexivity. Qed.
Lemma gcrs_hoisted {N} (pp : rparams) logN (u : Z -> nat -> polyQP N) q : (0 < logN)%nat -> In q (defaults logN) -> mget Z.eq_dec (NewCRS pp logN u) q <> None.
Proof. intros HL H. apply (mget_In_keys Z.eq_dec). apply (kcrs_in pp logN HL u). right. exact H. Qed.

(** PN15QP880 of mkckks_test.go, default scale 2^54, up to 64 parties. Beyond the costs of C52: a constant x with a fraction costs |x| 2^-48 + 2^-52 times the size of the operand, Rescale a product's rounding *)
Theorem C63_ckks15 : forall (u : Z -> nat -> polyQP N15) (rs : rlkset N15) (rk : rotset N15) (ck : conjset N15) sks (pk : string -> publicKey N15) (s r : string -> R N15) (P : list string)
  (w : nat -> nat -> IdSetModel.order) (oe : nat -> list string -> list string) (o : IdSetModel.order) (pt : poly N15) pts (pb : list (RR * RR)) zpts (mu eps : RR) (ins : list (kinput N15)) prog bs',
  (forall i j, (j < 14)%nat -> wordsQP ckks15 (u i j)) -> let crs := NewCRS ckks15 15 u in let scale := f_of_int (2 ^ 54) in let K := length P in
  (forall n m, order_ok (w n m)) -> (forall n, ord1_ok (oe n)) -> order_ok o -> plevel pt = 13%nat ->
  mwf sks -> (forall id k, mget seq_dec sks id = Some k -> In id P) -> (1 <= K <= 64)%nat ->
  (forall id, In id P -> id <> id0 /\ kgenerated ckks15 19 1 crs rs rk ck sks (defaults 15) pk id (s id) (r id)) ->
  (0 <= mu)%R -> (0 <= eps)%R -> (forall x, In x ins -> In (ki_id x) P /\ exists M, kinput_ok ckks15 scale 19 1 M mu eps x) ->
  (forall p, (p < length pb)%nat -> (0 <= fst (nth p pb (0, 0)) /\ 0 <= snd (nth p pb (0, 0)))%R /\
     exists x M, nth_error pts p = Some x /\ kplainreg ckks15 x (KP scale M (fst (nth p pb (0, 0)%R)) (snd (nth p pb (0, 0)%R))) (nth p zpts zslots)) ->
  let cA := half_pow 27 in let cR := (INR K * half_pow 20)%R in let cM := ((INR K + 1) * half_pow 24)%R in let cD := half_pow 48 in let cX := half_pow 52 in
  grules N15 scale 13 cA cR cM cD cX pb (defaults 15) (map (fun x => GB [ki_id x] (KB 13 mu (eps + half_pow 18)) false) ins) prog bs' ->
  exists cs h, kencrypt ckks15 scale pk oe ins = Ok cs /\ hclient ckks15 scale crs rs rk ck pts w cs prog = Ok h /\ length (contents h) = length bs' /\
    forall a b, nth_error bs' a = Some b -> exists c, nth_error (contents h) a = Some c /\ ctLevel (cv c) = Ok (bl (gk b)) /\ (forall x, In x (parties (cv c)) <-> In x (gids b)) /\ fpos (csc c) /\
      (gdbl b = false -> (bmu (gk b) + berr (gk b) <= IZR (if (bl (gk b) =? 0)%nat then 31 else 2 ^ 40))%R -> exists p, Decrypt ckks15 o (cv c) sks pt = Ok p /\ plevel p = bl (gk b) /\
        exists X, centred ckks15 (bl (gk b)) (prows p) X /\ (forall Y, centred ckks15 (bl (gk b)) (prows p) Y -> Y = X) /\
          forall j, (j < N15 / 2)%nat -> (cabs (csub (cscale (/ B2R (csc c)) (ckks_slot X j)) (nth a (gplain_run N15 zpts prog (map ki_z ins)) zslots j)) <= berr (gk b))%R).
Proof.
  intros u rs rk ck sks pk s r P w oe o pt pts pb zpts mu eps ins prog bs' HU crs scale K O OE OD PL MW HSK HK HG Hmu Heps HI HPT cA cR cM cD cX RU.
  destruct C50_ckks_wf as (WF & _). destruct small_ckks as ([S1 S2] & _). destruct betas as (BT & _).
  apply (C63_rule N15 ckks15 scale 19 1 K (IZR (2 ^ 54)) _ _ cA (half_pow 18) cR cM cD cX _ _ mu eps crs rs rk ck sks pk s r P (defaults 15) w oe o pt pts pb zpts ins prog (defaults 15) bs' WF (numbers15 K HK)); trivial.
  - unfold cX. reals. lra.
  - apply (kcrs_setup ckks15 WF 15 ltac:(lia) u). rewrite BT. exact HU.
  - intros q. apply gcrs_hoisted. lia.
  - apply gcrs_rots; [exact N15_pow|lia].
Qed.
Print Assumptions C63_ckks15.

(** PN14QP439, default scale 2^52 *)
Theorem C63_ckks14 : forall (u : Z -> nat -> polyQP N14) (rs : rlkset N14) (rk : rotset N14) (ck : conjset N14) sks (pk : string -> publicKey N14) (s r : string -> R N14) (P : list string)
  (w : nat -> nat -> IdSetModel.order) (oe : nat -> list string -> list string) (o : IdSetModel.order) (pt : poly N14) pts (pb : list (RR * RR)) zpts (mu eps : RR) (ins : list (kinput N14)) prog bs',
  (forall i j, (j < 6)%nat -> wordsQP ckks14 (u i j)) -> let crs := NewCRS ckks14 14 u in let scale := f_of_int (2 ^ 52) in let K := length P in
  (forall n m, order_ok (w n m)) -> (forall n, ord1_ok (oe n)) -> order_ok o -> plevel pt = 5%nat ->
  mwf sks -> (forall id k, mget seq_dec sks id = Some k -> In id P) -> (1 <= K <= 64)%nat ->
  (forall id, In id P -> id <> id0 /\ kgenerated ckks14 19 1 crs rs rk ck sks (defaults 14) pk id (s id) (r id)) ->
  (0 <= mu)%R -> (0 <= eps)%R -> (forall x, In x ins -> In (ki_id x) P /\ exists M, kinput_ok ckks14 scale 19 1 M mu eps x) ->
  (forall p, (p < length pb)%nat -> (0 <= fst (nth p pb (0, 0)) /\ 0 <= snd (nth p pb (0, 0)))%R /\
     exists x M, nth_error pts p = Some x /\ kplainreg ckks14 x (KP scale M (fst (nth p pb (0, 0)%R)) (snd (nth p pb (0, 0)%R))) (nth p zpts zslots)) ->
  let cA := half_pow 27 in let cR := (INR K * half_pow 20)%R in let cM := (INR K * half_pow 24)%R in let cD := half_pow 48 in let cX := half_pow 48 in
  grules N14 scale 5 cA cR cM cD cX pb (defaults 14) (map (fun x => GB [ki_id x] (KB 5 mu (eps + half_pow 18)) false) ins) prog bs' ->
  exists cs h, kencrypt ckks14 scale pk oe ins = Ok cs /\ hclient ckks14 scale crs rs rk ck pts w cs prog = Ok h /\ length (contents h) = length bs' /\
    forall a b, nth_error bs' a = Some b -> exists c, nth_error (contents h) a = Some c /\ ctLevel (cv c) = Ok (bl (gk b)) /\ (forall x, In x (parties (cv c)) <-> In x (gids b)) /\ fpos (csc c) /\
      (gdbl b = false -> (bmu (gk b) + berr (gk b) <= IZR (if (bl (gk b) =? 0)%nat then 63 else 2 ^ 40))%R -> exists p, Decrypt ckks14 o (cv c) sks pt = Ok p /\ plevel p = bl (gk b) /\
        exists X, centred ckks14 (bl (gk b)) (prows p) X /\ (forall Y, centred ckks14 (bl (gk b)) (prows p) Y -> Y = X) /\
          forall j, (j < N14 / 2)%nat -> (cabs (csub (cscale (/ B2R (csc c)) (ckks_slot X j)) (nth a (gplain_run N14 zpts prog (map ki_z ins)) zslots j)) <= berr (gk b))%R).
Proof.
  intros u rs rk ck sks pk s r P w oe o pt pts pb zpts mu eps ins prog bs' HU crs scale K O OE OD PL MW HSK HK HG Hmu Heps HI HPT cA cR cM cD cX RU.
  destruct C50_ckks_wf as (_ & WF & _). destruct small_ckks as (_ & [S1 S2] & _). destruct betas as (_ & BT & _).
  apply (C63_rule N14 ckks14 scale 19 1 K (IZR (2 ^ 52)) _ _ cA (half_pow 18) cR cM cD cX _ _ mu eps crs rs rk ck sks pk s r P (defaults 14) w oe o pt pts pb zpts ins prog (defaults 14) bs' WF (numbers14 K HK)); trivial.
  - unfold cX. reals. lra.
  - apply (kcrs_setup ckks14 WF 14 ltac:(lia) u). rewrite BT. exact HU.
  - intros q. apply gcrs_hoisted. lia.
  - apply gcrs_rots; [exact N14_pow|lia].
Qed.
Print Assumptions C63_ckks14.

(** PN14QP433 of cnn/cnn_test.go, default scale 2^47, two parties *)
Theorem C63_cnn14 : forall (u : Z -> nat -> polyQP N14) (rs : rlkset N14) (rk : rotset N14) (ck : conjset N14) sks (pk : string -> publicKey N14) (s r : string -> R N14) (P : list string)
  (w : nat -> nat -> IdSetModel.order) (oe : nat -> list string -> list string) (o : IdSetModel.order) (pt : poly N14) pts (pb : list (RR * RR)) zpts (mu eps : RR) (ins : list (kinput N14)) prog bs',
  (forall i j, (j < 7)%nat -> wordsQP cnn14 (u i j)) -> let crs := NewCRS cnn14 14 u in let scale := f_of_int (2 ^ 47) in let K := length P in
  (forall n m, order_ok (w n m)) -> (forall n, ord1_ok (oe n)) -> order_ok o -> plevel pt = 6%nat ->
  mwf sks -> (forall id k, mget seq_dec sks id = Some k -> In id P) -> (1 <= K <= 2)%nat ->
  (forall id, In id P -> id <> id0 /\ kgenerated cnn14 19 1 crs rs rk ck sks (defaults 14) pk id (s id) (r id)) ->
  (0 <= mu)%R -> (0 <= eps)%R -> (forall x, In x ins -> In (ki_id x) P /\ exists M, kinput_ok cnn14 scale 19 1 M mu eps x) ->
  (forall p, (p < length pb)%nat -> (0 <= fst (nth p pb (0, 0)) /\ 0 <= snd (nth p pb (0, 0)))%R /\
     exists x M, nth_error pts p = Some x /\ kplainreg cnn14 x (KP scale M (fst (nth p pb (0, 0)%R)) (snd (nth p pb (0, 0)%R))) (nth p zpts zslots)) ->
  let cA := half_pow 21 in let cR := (INR K * half_pow 15)%R in let cM := (half_pow 7)%R in let cD := half_pow 48 in let cX := half_pow 40 in
  grules N14 scale 6 cA cR cM cD cX pb (defaults 14) (map (fun x => GB [ki_id x] (KB 6 mu (eps + half_pow 13)) false) ins) prog bs' ->
  exists cs h, kencrypt cnn14 scale pk oe ins = Ok cs /\ hclient cnn14 scale crs rs rk ck pts w cs prog = Ok h /\ length (contents h) = length bs' /\
    forall a b, nth_error bs' a = Some b -> exists c, nth_error (contents h) a = Some c /\ ctLevel (cv c) = Ok (bl (gk b)) /\ (forall x, In x (parties (cv c)) <-> In x (gids b)) /\ fpos (csc c) /\
      (gdbl b = false -> (bmu (gk b) + berr (gk b) <= IZR (if (bl (gk b) =? 0)%nat then 500 else 2 ^ 40))%R -> exists p, Decrypt cnn14 o (cv c) sks pt = Ok p /\ plevel p = bl (gk b) /\
        exists X, centred cnn14 (bl (gk b)) (prows p) X /\ (forall Y, centred cnn14 (bl (gk b)) (prows p) Y -> Y = X) /\
          forall j, (j < N14 / 2)%nat -> (cabs (csub (cscale (/ B2R (csc c)) (ckks_slot X j)) (nth a (gplain_run N14 zpts prog (map ki_z ins)) zslots j)) <= berr (gk b))%R).
Proof.
  intros u rs rk ck sks pk s r P w oe o pt pts pb zpts mu eps ins prog bs' HU crs scale K O OE OD PL MW HSK HK HG Hmu Heps HI HPT cA cR cM cD cX RU.
  destruct C50_ckks_wf as (_ & _ & WF). destruct small_ckks as (_ & _ & [S1 S2]). destruct betas as (_ & _ & BT).
  apply (C63_rule N14 cnn14 scale 19 1 K (IZR (2 ^ 47)) _ _ cA (half_pow 13) cR cM cD cX _ _ mu eps crs rs rk ck sks pk s r P (defaults 14) w oe o pt pts pb zpts ins prog (defaults 14) bs' WF (numberscnn K HK)); trivial.
  - unfold cX. reals. lra.
  - apply (kcrs_setup cnn14 WF 14 ltac:(lia) u). rewrite BT. exact HU.
  - intros q. apply gcrs_hoisted. lia.
  - apply gcrs_rots; [exact N14_pow|lia].
Qed.
Print Assumptions C63_cnn14.
