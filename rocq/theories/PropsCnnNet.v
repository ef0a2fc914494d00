(** C59: the encrypted CNN inference of cnn/cnn_test.go, from key generation to the decision. *)
From Flocq Require Import Core BinarySingleNaN.
From Coq Require Import Znumtheory Setoid Morphisms Reals Lra.
From Verif Require Import Base IdSetModel KeySetModel NumTheory Negacyclic Ntt Word BasisExt BasisExtProofs DecompProofs BasisSpec Rows RlweModel KeyGenModel SchemeSpec ExtProd ExtProps Galois KeyGenProofs Instance CtModel CtSpec CtProofs EncDecProofs EncMsgModel KeySwitchModel Digits KsLoops RotProofs ConjProofs MulProofs PropsEnc PropsKeySwitch PropsRotate FloatModel CkksFloat CkksModel FloatProofs CkksFloatProofs CkksProofs CkksRescale PropsCkks PropsRescale PropsReserved Slots PropsSlots CkksSlots CkksCircuit PropsCkksCircuit PropsCkksScale PropsIndex Shipped BfvModel PropsShipped CkksBudget CkksHoist PropsCkksHoist PropsCkksShipped CkksTight PropsCkksTight CkksCalc CnnModel CnnNet CnnProgProofs CnnSlots CnnEval CnnSetup SlotNorm SlotEncode.
Open Scope Z_scope.

(** ** packed messages are bounded by the bounds of the network *)
Record netbounds := NB { bImage : RR; bKernels : RR; bFC1 : RR; bB1 : RR; bFC2 : RR; bB2 : RR }.
Definition net_within (b : netbounds) (w : network) (image : nat -> nat -> CC) : Prop :=
  (forall i j, (cabs (image i j) <= bImage b)%R) /\ (forall i a c, (cabs (kernels w i a c) <= bKernels b)%R) /\ (forall i u, (cabs (FC1 w i u) <= bFC1 b)%R) /\ (forall u, (cabs (B1 w u) <= bB1 b)%R) /\
  (forall u c, (cabs (FC2 w u c) <= bFC2 b)%R) /\ (forall c, (cabs (B2 w c) <= bB2 b)%R).
Lemma cabs_0 : cabs (0%R, 0%R) = 0%R. Proof. apply cabs_eq; cbn; lra. Qed.
Lemma filled_le ws b x : (0 <= b)%R -> (forall y v, In (y, v) ws -> (cabs v <= b)%R) -> (cabs (filled ws x) <= b)%R.
Proof.
  intros B0 H. unfold filled. assert (X : forall l v0, (cabs v0 <= b)%R -> (forall y v, In (y, v) l -> (cabs v <= b)%R) -> (cabs (fold_left (fun v w => if (fst w =? x)%nat then snd w else v) l v0) <= b)%R).
  { induction l as [|[y v] l IH]; intros v0 H0 HL; [exact H0|]. cbn [fold_left fst snd]. apply IH; [|intros y' v' I; apply (HL y' v'); right; exact I]. destruct (y =? x)%nat; [apply (HL y v); left; reflexivity|exact H0]. }
  apply X; [rewrite cabs_0; exact B0|exact H].
Qed.
Lemma in_for {A} n (body : nat -> list A) x : In x (for_ n body) -> exists i, In x (body i).
Proof. unfold for_. intros H. apply in_flat_map in H. destruct H as (i & _ & H). exists i. exact H. Qed.
Ltac in_writes H := repeat (apply in_for in H; destruct H as [? H]); cbn [In] in H; repeat (destruct H as [H|H]; [injection H as _ <-|]); try contradiction.
Lemma placed_le (vs : list (nat -> CC)) (bs : list RR) : Forall2 (fun v b => forall x, (cabs (v x) <= b)%R) vs bs -> forall n j, (n < length vs)%nat -> (cabs (nth n (map placed vs) zslots j) <= nth n bs 0)%R.
Proof.
  induction 1 as [|v b vs bs H HF IH]; intros n j Hn; [cbn in Hn; lia|]. destruct n as [|n]; cbn [map nth]; [unfold placed; apply H|]. apply IH. cbn in Hn. lia.
Qed.
Lemma packed_le b w image : net_within b w image -> forall n j, (n < 16)%nat ->
  (cabs (nth n (cnn_inputs w image) zslots j) <= nth n (bImage b :: repeat (bKernels b) 4 ++ repeat (bFC1 b) 8 ++ [bB1 b; bFC2 b; bB2 b]) 0)%R.
Proof.
  intros (HI & HK & HF & HB & HG & HC) n j Hn.
  assert (I0 : (0 <= bImage b)%R) by (eapply Rle_trans; [apply cabs_nonneg|apply (HI 0%nat 0%nat)]). assert (K0 : (0 <= bKernels b)%R) by (eapply Rle_trans; [apply cabs_nonneg|apply (HK 0 0 0)%nat]).
  assert (F0 : (0 <= bFC1 b)%R) by (eapply Rle_trans; [apply cabs_nonneg|apply (HF 0 0)%nat]). assert (B0 : (0 <= bB1 b)%R) by (eapply Rle_trans; [apply cabs_nonneg|apply (HB 0%nat)]).
  assert (G0 : (0 <= bFC2 b)%R) by (eapply Rle_trans; [apply cabs_nonneg|apply (HG 0 0)%nat]). assert (C0 : (0 <= bB2 b)%R) by (eapply Rle_trans; [apply cabs_nonneg|apply (HC 0%nat)]).
  assert (EI : forall x, (cabs (encodedImage image x) <= bImage b)%R).
  { intros x. unfold encodedImage, doubled. destruct (x <? 4096)%nat; (apply filled_le; [exact I0|]; intros y v H; unfold imageWrites in H; in_writes H; apply HI). }
  assert (EK : forall q x, (cabs (encodedKernel w q x) <= bKernels b)%R).
  { intros q x. unfold encodedKernel, doubled. destruct (x <? 4096)%nat; (apply filled_le; [exact K0|]; intros y v H; unfold kernelWrites in H; in_writes H; apply HK). }
  assert (EF : forall q x, (cabs (encodedFC1 w q x) <= bFC1 b)%R).
  { intros q x. unfold encodedFC1, tempFC1. apply filled_le; [exact F0|]. intros y v H. in_writes H. apply HF. }
  assert (EB1 : forall x, (cabs (encodedB1 w x) <= bB1 b)%R) by (intros x; unfold encodedB1; apply filled_le; [exact B0|]; intros y v H; in_writes H; apply HB).
  assert (EG : forall x, (cabs (encodedFC2 w x) <= bFC2 b)%R) by (intros x; unfold encodedFC2; cbv zeta; destruct (_ && _); [apply HG|rewrite cabs_0; exact G0]).
  assert (EB2 : forall x, (cabs (encodedB2 w x) <= bB2 b)%R) by (intros x; unfold encodedB2; apply filled_le; [exact C0|]; intros y v H; in_writes H; apply HC).
  apply placed_le; [|exact Hn]. constructor; [exact EI|]. apply Forall2_app; [|apply Forall2_app].
  - cbn [map seq repeat]. do 4 (constructor; [intros x; apply (EK _ x)|]). constructor.
  - cbn [map seq repeat]. do 8 (constructor; [intros x; apply (EF _ x)|]). constructor.
  - constructor; [exact EB1|]. constructor; [exact EG|]. constructor; [exact EB2|]. constructor.
Qed.

(** ** the session: encrypt the 16 packed messages, evaluate *)
Definition modelOwner : string := "modelOwner". Definition dataOwner : string := "dataOwner".
Definition cnn_session {N} pp (ps : f64) (crs : crsT N) (rs : rlkset N) (rk : rotset N) (pk : string -> publicKey N) w oe (ins : list (kinput N)) (mask : poly N) (maskScale : f64) (st : evalst N) : res (evalst N * ckct N) :=
  cs <- kencrypt pp ps pk oe ins ;;
  match cs with
  | [img; k0; k1; k2; k3; m0; m1; m2; m3; m4; m5; m6; m7; b1; fc2; b2] => Inference pp crs ps rs rk w st img [k0; k1; k2; k3] [m0; m1; m2; m3; m4; m5; m6; m7] b1 fc2 b2 mask maskScale
  | _ => Panic
  end.
(** bounds of the 16 messages, in units of 2^-60 *)
Record znet := ZN { znImage : Z; znKernels : Z; znFC1 : Z; znB1 : Z; znFC2 : Z; znB2 : Z }.
Definition net_of (z : znet) : netbounds := NB (fromZ (znImage z)) (fromZ (znKernels z)) (fromZ (znFC1 z)) (fromZ (znB1 z)) (fromZ (znFC2 z)) (fromZ (znB2 z)).
Definition cnn_ms (z : znet) : list Z := znImage z :: repeat (znKernels z) 4 ++ repeat (znFC1 z) 8 ++ [znB1 z; znFC2 z; znB2 z].
Definition cnn_calc (L : nat) (k : zconst) (zn : znet) (e : Z) : list zb := zrun L k (fun _ => None) (xerase cnn_prog) (zfresh L (cnn_ms zn) e).
Definition cnn_calc_ok (L : nat) (k : zconst) (zn : znet) (e : Z) : bool := zok L k (fun _ => None) (xerase cnn_prog) (zfresh L (cnn_ms zn) e).

Lemma re_le (x : CC) : (Rabs (fst x) <= cabs x)%R.
Proof.
  pose proof (cabs_nonneg x) as H. pose proof (cabs_sq x) as E. destruct (Rle_lt_dec (Rabs (fst x)) (cabs x)) as [L|G]; [exact L|exfalso]. assert (S : (cabs x * cabs x < Rabs (fst x) * Rabs (fst x))%R) by (apply Rmult_le_0_lt_compat; lra).
  rewrite <- Rabs_mult, Rabs_right in S by (apply Rle_ge, Rle_0_sqr). pose proof (Rle_0_sqr (snd x)) as Q. unfold Rsqr in Q. lra.
Qed.
Lemma rmapM_len {A C} (f : A -> res C) : forall l r, rmapM f l = Ok r -> length r = length l.
Proof. induction l as [|x l IH]; intros r E; cbn [rmapM] in E; [injection E as <-; reflexivity|]. destruct (f x) as [y|]; [|discriminate E]. cbn [rbind] in E. destruct (rmapM f l) as [ys|]; [|discriminate E]. cbn [rbind] in E. injection E as <-. cbn. rewrite (IH ys eq_refl). reflexivity. Qed.
Lemma inputs_len net image : length (cnn_inputs net image) = 16%nat. Proof. reflexivity. Qed.
Lemma erase_len : length (xerase cnn_prog) = 86%nat. Proof. reflexivity. Qed.
Opaque cnn_prog cnn_inputs.
Theorem C59_inference : forall N pp ps B T S eta e1 cA cF cR cM cD MN cap mu eps logN u us (rs : rlkset N) (rk : rotset N) sks (pk : string -> publicKey N) (s r : string -> R N)
  (w : nat -> nat -> nat -> IdSetModel.order) (oe : nat -> list string -> list string) (o : IdSetModel.order) (pt mask : poly N) (Mk : Z) (ins : list (kinput N)) st k zn e (net : network) (image : nat -> nat -> CC),
  wfp N pp -> N = (2 ^ logN)%nat -> (14 <= logN)%nat -> knumbers N pp ps B T 2 S eta e1 cA cF cR cM cD MN cap -> small_ok pp B -> small_ok pp T ->
  (forall i j, (j < beta pp (maxLevel pp))%nat -> wordsQP pp (u i j)) -> (forall i j, (j < beta pp (maxLevel pp))%nat -> wordsQP pp (us i j)) ->
  let crs := cnn_crs pp logN u us in let P := [modelOwner; dataOwner] in
  (forall a b c, order_ok (w a b c)) -> (forall n, ord1_ok (oe n)) -> order_ok o -> pool_ok pp st ->
  mwf sks -> (forall id k, mget seq_dec sks id = Some k -> In id P) -> (forall id, In id P -> cnn_generated pp B T crs rs rk sks (cnn_keyrots logN) pk id (s id) (r id)) ->
  (* the data owner encrypts the packed image, the model owner the packed weights; encodings within eps *)
  map ki_z ins = cnn_inputs net image -> map ki_id ins = dataOwner :: repeat modelOwner 15 -> (0 <= mu)%R -> (0 <= eps)%R -> (forall x, In x ins -> exists M, kinput_ok pp ps B T M mu eps x) ->
  kplainreg pp (mask, ps) (KP ps Mk 1 eps) (placed encodedMask) ->
  (* bounds of image and weights; constants of the calculator *)
  net_within (net_of zn) net image ->
  (0 <= cA <= fromZ (zA k))%R -> (0 <= cR <= fromZ (zR k))%R -> (0 <= cM <= fromZ (zM k))%R -> (0 <= cD <= fromZ (zD k))%R -> (0 <= eps + cF <= fromZ e)%R ->
  zpb k = [(unit60, e)] ->
  let b := nth 101 (cnn_calc (maxLevel pp) k zn e) (ZB 0 0 0) in cnn_calc_ok (maxLevel pp) k zn e = true -> plevel pt = maxLevel pp -> (fromZ (zmu b + zerr b) <= cap (zl b))%R ->
  exists st' c p, cnn_session pp ps crs rs rk pk w oe ins mask ps st = Ok (st', c) /\ fpos (csc c) /\ Decrypt pp o (cv c) sks pt = Ok p /\ plevel p = zl b /\
    exists X, centred pp (zl b) (prows p) X /\ (forall Y, centred pp (zl b) (prows p) Y -> Y = X) /\
      (forall d, (d < 10)%nat -> (cabs (csub (cscale (/ B2R (csc c)) (ckks_slot X d)) (cnn_out net image d)) <= fromZ (zerr b))%R) /\
      (* the decision, for decoded values within delta of the slots *)
      forall value delta d0, (d0 < 10)%nat -> (forall d, (d < 10)%nat -> (Rabs (value d - fst (cscale (/ B2R (csc c)) (ckks_slot X d))) <= delta)%R) ->
        let m := (fromZ (zerr b) + delta)%R in (-100 + m < fst (cnn_out net image d0))%R -> (forall d, (d < 10)%nat -> d <> d0 -> (fst (cnn_out net image d) + 2 * m < fst (cnn_out net image d0))%R) ->
        decide10 value = Z.of_nat d0.
Proof.
  intros N pp ps B T S eta e1 cA cF cR cM cD MN cap mu eps logN u us rs rk sks pk s r w oe o pt mask Mk ins st k zn e net image WF EN HL NBR SB ST HU HUS crs P O OE OD PO MW HSK HG EZ EI Hmu Heps HI HMask HW HA HR HM HD HE HPB b OK PL HCap.
  assert (LI : length ins = 16%nat) by (rewrite <- (map_length ki_z), EZ; reflexivity).
  pose proof erase_len as LP.
  pose proof (proj1 (wf_N _ _ WF)) as N2. assert (HL0 : (0 < logN)%nat) by lia.
  assert (D8 : (8192 | Z.of_nat (N / 2))). { rewrite EN, (pow_half logN HL0). exists (2 ^ Z.of_nat (logN - 14)). change 8192 with (2 ^ 13). rewrite <- Z.pow_add_r by lia. f_equal. lia. }
  assert (NH : (10 <= N / 2)%nat). { assert (HD8 : 8192 <= Z.of_nat (N / 2)); [|lia]. apply Z.divide_pos_le; [|exact D8]. assert (0 < N / 2)%nat by (apply Nat.div_str_pos; lia). lia. }
  destruct (add_conj pp B T crs rs rk sks (cnn_keyrots logN) pk s r P) as (ck & HG'); trivial.
  { destruct NBR. assumption. }
  { apply (cnn_entries pp WF logN HL0 u us HU HUS). cbn. tauto. }
  { intros id Hid. split; [|apply HG; exact Hid]. destruct Hid as [<-|[<-|[]]]; discriminate. }
  assert (H1 : forall n m, order_ok (cnn_w w n m)) by (apply cnn_w_ok; exact O).
  assert (H2 : forall i, In i ([0; -1; -2] ++ cnn_keyrots logN) -> exists c, mget Z.eq_dec crs i = Some c /\ crs_ok pp c) by (apply (cnn_entries pp WF logN HL0 u us HU HUS)).
  assert (H3 : (length P <= 2)%nat) by (cbn; lia).
  assert (H4 : forall x, In x ins -> In (ki_id x) P /\ exists M, kinput_ok pp ps B T M mu eps x).
  { intros x Hx. split; [|apply HI; exact Hx]. assert (I : In (ki_id x) (map ki_id ins)) by (apply in_map; exact Hx). rewrite EI in I. unfold P. cbn in I. cbn. tauto. }
  assert (H5 : forall q, (q < length [(1, eps)%R])%nat -> (0 <= fst (nth q [(1, eps)] (0, 0)) /\ 0 <= snd (nth q [(1, eps)] (0, 0)))%R /\
    exists x M, nth_error [(mask, ps)] q = Some x /\ kplainreg pp x (KP ps M (fst (nth q [(1, eps)%R] (0, 0)%R)) (snd (nth q [(1, eps)%R] (0, 0)%R))) (nth q [placed encodedMask] zslots)).
  { intros q Hq. cbn [length] in Hq. assert (q = 0%nat) by lia. subst q. cbn [nth fst snd]. split; [lra|]. exists (mask, ps), Mk. split; [reflexivity|exact HMask]. }
  assert (H6 : krots crs (xerase cnn_prog) (cnn_keyrots logN)) by (apply (cnn_krots pp logN EN HL0 u us)).
  assert (H7 : xwell crs (length ins) nil cnn_prog) by (rewrite LI; apply cnn_xwell; assumption).
  assert (H8 : length [(1, eps)%R] = length (zpb k)) by (rewrite HPB; reflexivity).
  assert (H9 : forall q, (q < length [(1, eps)%R])%nat -> (fst (nth q [(1, eps)] (0, 0)) <= fromZ (fst (nth q (zpb k) (0, 0)%Z)) /\ snd (nth q [(1, eps)] (0, 0)) <= fromZ (snd (nth q (zpb k) (0, 0)%Z)))%R).
  { intros q Hq. cbn [length] in Hq. assert (q = 0%nat) by lia. subst q. rewrite HPB. cbn [nth fst snd]. split; [rewrite <- (fromZ_unit 1), Z.mul_1_l; lra|]. destruct NBR as [nB nT nS _ _ _ _ _ _ _ nF _ _ _ _].
    assert (0 <= cF)%R; [|lra]. destruct nS as (_ & _ & S2). apply Rmult_le_reg_r with S; [lra|]. rewrite Rmult_0_l. eapply Rle_trans; [|exact nF]. apply Rmult_le_pos; [apply pos_INR|]. apply IZR_le. apply Z.mul_nonneg_nonneg; [exact nB|].
    assert (0 <= 2 * Z.of_nat N * T) by (apply Z.mul_nonneg_nonneg; lia). lia. }
  assert (H10 : length (cnn_ms zn) = length ins) by (rewrite LI; reflexivity).
  assert (H11 : forall n j, (n < length ins)%nat -> (j < N / 2)%nat -> (cabs (nth n (map ki_z ins) zslots j) <= fromZ (nth n (cnn_ms zn) 0%Z))%R).
  { intros n j Hn Hj. rewrite LI in Hn. rewrite EZ. eapply Rle_trans; [apply (packed_le _ _ _ HW n j Hn)|]. right. unfold cnn_ms. do 16 (destruct n as [|n]; [reflexivity|]). lia. }
  assert (H12 : (101 < length ins + length (xerase cnn_prog))%nat) by (rewrite LI, LP; lia).
  unfold cnn_calc_ok in OK. unfold b, cnn_calc in HCap. assert (HV0 : forall n v j, (length ins <= n < length ins + length (xerase cnn_prog))%nat -> (fun _ : nat => @None Z) n = Some v -> (j < N / 2)%nat -> (cabs (nth n (kplain_run N [placed encodedMask] (xerase cnn_prog) (map ki_z ins)) zslots j) <= fromZ v)%R) by (intros n v j _ HN; discriminate HN).
  pose proof (C58_calculator N pp ps B T 2 S eta e1 cA cF cR cM cD MN cap mu eps crs rs rk ck sks pk s r P (cnn_keyrots logN) (cnn_w w) oe o pt [(mask, ps)] [(1, eps)%R] [placed encodedMask] ins cnn_prog st 101 k (fun _ => None) (cnn_ms zn) e
    WF NBR SB ST H1 OE OD PO H2 MW HSK H3 HG' Hmu Heps H4 H5 H6 H7 HA HR HM HD HE H8 H9 H10 H11 HV0 OK PL H12 HCap)
    as Q. cbv zeta in Q. destruct Q as (st' & cs & hs & c & p & X1 & X2 & X3 & X4 & X5 & X & X6 & X7 & X8).
  fold (cnn_calc (maxLevel pp) k zn e) in X5, X6, X7, X8. fold b in X5, X6, X7, X8.
    assert (HS : forall d, (d < 10)%nat -> (cabs (csub (cscale (/ B2R (csc c)) (ckks_slot X d)) (cnn_out net image d)) <= fromZ (zerr b))%R).
    { intros d Hd. specialize (X8 d ltac:(lia)). rewrite EZ, (cnn_slots N net image N2 D8 d Hd) in X8. exact X8. }
    exists st', c, p. split; [|split; [exact X3|split; [exact X4|split; [exact X5|]]]].
    + unfold xsession in X1. unfold cnn_session. destruct (kencrypt pp ps pk oe ins) as [es|] eqn:EE; [|discriminate X1]. cbn [rbind] in *.
      assert (LE : length es = 16%nat) by (rewrite (rmapM_len _ _ _ EE), seq_length; exact LI).
      do 16 (destruct es as [|? es]; [discriminate LE|]). destruct es; [|discriminate LE]. rewrite (inference_prog pp crs ps rs rk ck w). rewrite X1. cbn [rbind]. unfold BasisExt.idx. rewrite X2. reflexivity.
    + exists X. split; [exact X6|]. split; [exact X7|]. split; [exact HS|]. intros value delta d0 Hd0 HV m H0 HM'.
      apply (decide10_near (fun d => fst (cnn_out net image d)) value d0 m Hd0); [|exact H0|exact HM'].
      intros d Hd. specialize (HV d Hd). specialize (HS d Hd). set (v := cscale (/ B2R (csc c)) (ckks_slot X d)) in *.
      assert (RE : (Rabs (fst v - fst (cnn_out net image d)) <= fromZ (zerr b))%R) by (eapply Rle_trans; [|exact HS]; apply (re_le (csub v (cnn_out net image d)))).
      unfold m. replace (value d - fst (cnn_out net image d))%R with ((value d - fst v) + (fst v - fst (cnn_out net image d)))%R by ring. eapply Rle_trans; [apply Rabs_triang|]. lra.
Qed.
Print Assumptions C59_inference.
