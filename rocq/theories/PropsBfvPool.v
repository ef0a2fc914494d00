(** C49: no scratch buffer of a BFV Evaluator, its KeySwitcher or a BFV RelinearizationKeySet influences a result.
    The model (KsPool.v, BfvPool.v) keeps every buffer of the code as state; [bcall] runs one exported operation on that state. *)
From Flocq Require Import Core BinarySingleNaN.
From Coq Require Import Znumtheory Setoid Morphisms.
From Verif Require Import Base IdSetModel IdSetSpec IdSetProofs KeySetModel NumTheory Negacyclic Ntt Word FloatModel CkksFloat BasisExt BasisExtProofs DecompProofs Rows RlweModel KeyGenModel SchemeSpec ExtProd Galois KeyGenProofs Instance CtModel CtSpec CtProofs EncDecProofs KeySwitchModel Digits KsLoops RotProofs CkksModel CkksProofs PropsKeySwitch PropsEnc BfvModel PropsBfv BfvMulModel BfvConv BfvGadget BfvDig BfvKey BfvMulProofs PropsBfvConv PropsBfvMul PropsBfvMulEx KsPool KsPoolProofs EvalPool EvalPoolProofs BfvPool BfvPoolProofs.
Open Scope Z_scope.

(** ** Specification *)
Section Spec.
  Context {N : nat} (b : bparams) (crs : crsT N).
  (** every buffer has the size it was created with, and a key in the set has its buffers; nothing is said about the content of a buffer *)
  Definition bfv_buffers_sized (w : bworld N) : Prop := bwok b w.
  (** the operands of a multiplication are BFV ciphertexts: one residue row per modulus of Q in every component *)
  Definition bfv_operands_sized (op : bevop N) : Prop :=
    match op with VMul c0 c1 => shape (S (maxLevel (ppQ b))) c0 /\ shape (S (maxLevel (ppQ b))) c1 | _ => True end.
  (** the states an Evaluator and its key set go through. A call that panics (and is recovered from) leaves arbitrary data in the buffers, but cannot resize them
      or change the keys (AddRelinearizationKey and DelRelinearizationKey do not panic). *)
  Inductive bfv_history : bworld N -> Prop :=
  | bh_new : bfv_history (newBworld b)
  | bh_call w op (o : nat -> order) w' c : bfv_history w -> (forall n, order_ok (o n)) -> bfv_operands_sized op -> bcall b crs o w op = Ok (w', c) -> bfv_history w'
  | bh_panic w op (o : nat -> order) w' : bfv_history w -> bcall b crs o w op = Panic -> bfv_buffers_sized w' -> bwk w' = bwk w -> bfv_history w'.
  (** a new Evaluator, and a new key set into which the keys rs are put *)
  Definition bfv_fresh (rs : brlkset N) : bworld N :=
    let R := (id0, newR b) :: map (fun e => (fst e, newR b)) rs in
    let H := map (fun e => (fst e, (newSwk (ppQ b), newSwk (ppQ b)))) rs in
    BW (newBst b) rs R R H H.
  (** both runs panic, or both return the same ciphertext (nothing, for the key operations) *)
  Definition bfv_same_outcome (m m' : res (bworld N * option (ctT N))) : Prop :=
    match m, m' with Ok (_, c), Ok (_, c') => c = c' | Panic, Panic => True | _, _ => False end.
End Spec.
Lemma bgood_of {N} b (op : bevop N) : bfv_operands_sized b op -> bgoodop b op.
Proof. destruct op; exact (fun H => H). Qed.

Section Pool.
  Context {N : nat} (b : bparams) (WB : wfb N b) (HD : (length (bQ b) mod alpha (ppQ b) = 0)%nat).
  Lemma bcall_out crs (o : nat -> order) (w w' : bworld N) op : (forall n, order_ok (o n)) -> bwok b w -> bwok b w' -> bwk w = bwk w' -> bgoodop b op -> bfv_same_outcome (bcall b crs o w op) (bcall b crs o w' op).
  Proof.
    intros O WO WO' E G. pose proof (bcall_sim b WB HD crs o w w' op O WO WO' E G) as H. unfold rsim, bcpost in H. unfold bfv_same_outcome.
    destruct (bcall b crs o w op) as [[x y]|], (bcall b crs o w' op) as [[x' y']|]; trivial. exact (proj1 H).
  Qed.
  Lemma bhistory_sized crs (w : bworld N) : bfv_history b crs w -> bwok b w.
  Proof.
    induction 1 as [|w op o w' c H IH O G E|w op o w' H IH E S R]; [apply (newBworld_ok b WB HD)| |exact S].
    pose proof (bgood_of b _ G) as G'. pose proof (bcall_sim b WB HD crs o w w op O IH IH eq_refl G') as X. rewrite E in X. exact (proj1 (proj2 X)).
  Qed.
  Lemma bpool_new {A V} (d : V) (rs : gomap string A) id : mget seq_dec (map (fun e => (fst e, d)) rs) id = if in_dec seq_dec id (keys rs) then Some d else None.
  Proof.
    induction rs as [|[x k] rs IH]; [reflexivity|]. cbn [map mget fst]. rewrite IH. unfold keys. cbn [map fst]. destruct (seq_dec id x) as [->|NE].
    - destruct (in_dec seq_dec x (x :: map fst rs)) as [_|H]; [reflexivity|destruct H; left; reflexivity].
    - destruct (in_dec seq_dec id (map fst rs)), (in_dec seq_dec id (x :: map fst rs)) as [H|H]; trivial; exfalso; cbn in H; intuition congruence.
  Qed.
  Lemma bfresh_sized (rs : brlkset N) : bwok b (bfv_fresh b rs).
  Proof.
    pose proof (newBst_ok b WB HD) as A. pose proof (shS_new (ppQ b) (N := N)) as SN. unfold bwok, bfv_fresh. cbv zeta. cbn [bws bwk bwR1 bwR2 bwH0 bwH1]. split; [exact A|].
    assert (X : pshape (N := N) b ((id0, newR b) :: map (fun e => (fst e, newR b)) rs)).
    { intros id x. cbn [mget]. destruct (seq_dec id id0); [intros E; injection E as <-; apply (lenNew b WB)|]. rewrite bpool_new. destruct (in_dec _ _ _); [intros E; injection E as <-; apply (lenNew b WB)|discriminate]. }
    assert (Y : bhshape (N := N) b (map (fun e => (fst e, (newSwk (ppQ b), newSwk (ppQ b)))) rs)).
    { intros id x. rewrite bpool_new. destruct (in_dec _ _ _); [intros E; injection E as <-; split; exact SN|discriminate]. }
    split; [exact X|]. split; [exact X|]. split; [exact Y|]. split; [exact Y|]. split; [discriminate|]. split; [discriminate|].
    intros id H. apply (mget_In_keys seq_dec) in H. cbn [mget]. rewrite !bpool_new. destruct (in_dec seq_dec id (keys rs)); [|contradiction]. destruct (seq_dec id id0); repeat split; discriminate.
  Qed.
End Pool.

(** ** C49 *)
(** whatever ran before on the Evaluator and its key set, a call has the outcome it has on new ones holding the same keys *)
Theorem C49_no_memory : forall N b crs (o : nat -> IdSetModel.order) (w : bworld N) op, wfb N b -> (length (bQ b) mod alpha (ppQ b) = 0)%nat -> (forall n, order_ok (o n)) ->
  bfv_history b crs w -> bfv_operands_sized b op -> bfv_same_outcome (bcall b crs o w op) (bcall b crs o (bfv_fresh b (bwk w)) op).
Proof. intros N b crs o w op WB HD O H G. apply (bcall_out b WB HD); trivial; [apply (bhistory_sized b WB HD crs); exact H|apply (bfresh_sized b WB HD)]. Qed.
Print Assumptions C49_no_memory.
(** the same for any content of the buffers *)
Theorem C49_any_buffers : forall N b crs (o : nat -> IdSetModel.order) (w w' : bworld N) op, wfb N b -> (length (bQ b) mod alpha (ppQ b) = 0)%nat -> (forall n, order_ok (o n)) ->
  bfv_buffers_sized b w -> bfv_buffers_sized b w' -> bwk w = bwk w' -> bfv_operands_sized b op -> bfv_same_outcome (bcall b crs o w op) (bcall b crs o w' op).
Proof. intros N b crs o w w' op WB HD O B B' E G. apply (bcall_out b WB HD); trivial. Qed.
Print Assumptions C49_any_buffers.
(** two histories that end with the same keys: every later sequence of calls returns the same ciphertexts, panics included *)
Fixpoint bfv_outcomes {N} b (crs : crsT N) (o : nat -> nat -> IdSetModel.order) (w : bworld N) (ops : list (bevop N)) : list (option (option (ctT N))) :=
  match ops with
  | nil => nil
  | op :: ops => match bcall b crs (o (length ops)) w op with Ok (w', c) => Some c :: bfv_outcomes b crs o w' ops | Panic => [None] end
  end.
Lemma bcall_keys {N} b (crs : crsT N) (o : nat -> IdSetModel.order) (w : bworld N) op w1 c : bcall b crs o w op = Ok (w1, c) ->
  bwk w1 = match op with VAddKey id k => mset seq_dec (bwk w) id k | VDelKey id => mdel seq_dec (bwk w) id | _ => bwk w end.
Proof.
  destruct op; cbn [bcall]; intros H.
  - destruct (bAddNew _ _ _ _); cbn [rbind] in H; [injection H as <- _; reflexivity|discriminate].
  - destruct (bSubNew _ _ _ _); cbn [rbind] in H; [injection H as <- _; reflexivity|discriminate].
  - destruct (bMulRelinNewSt _ _ _ _ _ _) as [[a d]|] eqn:E; cbn [rbind] in H; [injection H as <- _|discriminate]. unfold bMulRelinNewSt in E.
    repeat match type of E with rbind ?m _ = _ => let X := fresh in destruct m as [X|]; cbn [rbind] in E; [repeat match type of X with (_ * _)%type => let Y := fresh in let Z := fresh in destruct X as [Y Z]; rename Y into X end|discriminate] end.
    injection E as <- _. reflexivity.
  - destruct (bRotateNewSt _ _ _ _ _ _ _) as [[a d]|]; cbn [rbind] in H; [injection H as <- _; reflexivity|discriminate].
  - destruct (bConjugateNewSt _ _ _ _ _ _) as [[a d]|]; cbn [rbind] in H; [injection H as <- _; reflexivity|discriminate].
  - injection H as <- _. reflexivity.
  - injection H as <- _. reflexivity.
Qed.
Theorem C49_histories_agree : forall N b crs (o : nat -> nat -> IdSetModel.order) (w w' : bworld N) ops, wfb N b -> (length (bQ b) mod alpha (ppQ b) = 0)%nat -> (forall n m, order_ok (o n m)) ->
  bfv_history b crs w -> bfv_history b crs w' -> bwk w = bwk w' -> (forall op, In op ops -> bfv_operands_sized b op) ->
  bfv_outcomes b crs o w ops = bfv_outcomes b crs o w' ops.
Proof.
  intros N b crs o w w' ops WB HD O H H'. apply (bhistory_sized b WB HD) in H. apply (bhistory_sized b WB HD) in H'. revert w w' H H'.
  induction ops as [|op ops IH]; intros w w' H H' E G; [reflexivity|]. cbn [bfv_outcomes].
  assert (G' : bgoodop b op) by (apply bgood_of; apply G; left; reflexivity).
  pose proof (bcall_sim b WB HD crs (o (length ops)) w w' op (O _) H H' E G') as X. unfold rsim, bcpost in X.
  destruct (bcall b crs (o (length ops)) w op) as [[a c]|] eqn:E1, (bcall b crs (o (length ops)) w' op) as [[a' c']|] eqn:E2; try contradiction; [|reflexivity].
  cbn [fst snd] in X. destruct X as (-> & A & A'). f_equal. apply IH; trivial; [|intros x Hx; apply G; right; exact Hx].
  rewrite (bcall_keys _ _ _ _ _ _ _ E1), (bcall_keys _ _ _ _ _ _ _ E2). destruct op; rewrite ?E; reflexivity.
Qed.
Print Assumptions C49_histories_agree.

(** The operations with local buffers (BfvMulModel.v, BfvModel.v) are what the ones with pooled buffers compute, after every history: C37, C38, C40, C46, C47 hold for them. *)
Definition bfv_result {N A} (m : res (A * ctT N)) : res (ctT N) := match m with Ok (_, c) => Ok c | Panic => Panic end.
Theorem C49_mul_relin : forall N b (o : IdSetModel.order) crs (w : bworld N) c0 c1, wfb N b -> (length (bQ b) mod alpha (ppQ b) = 0)%nat -> order_ok o -> bfv_history b crs w ->
  bfv_operands_sized b (VMul c0 c1) -> bfv_result (bMulRelinNewSt b o crs w c0 c1) = bMulRelinNew b o crs c0 c1 (bwk w).
Proof.
  intros N b o crs w c0 c1 WB HD O H [G0 G1]. apply (bhistory_sized b WB HD) in H. pose proof (bMulRelinNewSt_all b WB HD o crs w c0 c1 O H G0 G1) as X. unfold rsim, mulok in X. unfold bfv_result.
  destruct (bMulRelinNew b o crs c0 c1 (bwk w)) as [c|], (bMulRelinNewSt b o crs w c0 c1) as [[a d]|]; try contradiction; [|reflexivity]. destruct X as [-> _]. reflexivity.
Qed.
Print Assumptions C49_mul_relin.
Lemma result_same {N} pp (m : res (ctT N)) (k : res (kst N * ctT N)) : rsim (same pp) m k -> bfv_result k = m.
Proof. unfold rsim, same, bfv_result. destruct m as [c|], k as [[x d]|]; try contradiction; [|reflexivity]. cbn [fst snd]. intros [-> _]. reflexivity. Qed.
Theorem C49_rotate : forall N b (o : nat -> IdSetModel.order) crs (w : bworld N) c k rk, wfb N b -> (length (bQ b) mod alpha (ppQ b) = 0)%nat -> (forall n, order_ok (o n)) -> bfv_history b crs w ->
  bfv_result (bRotateNewSt b o crs (bK (bws w)) c k rk) = bRotateNew (ppQ b) o crs c k rk.
Proof. intros N b o crs w c k rk WB HD O H. apply (bhistory_sized b WB HD) in H. apply (result_same (ppQ b)). apply (bRotateNewSt_sim b WB); trivial. apply H. Qed.
Print Assumptions C49_rotate.
Theorem C49_conjugate : forall N b (o : IdSetModel.order) crs (w : bworld N) c ck, wfb N b -> (length (bQ b) mod alpha (ppQ b) = 0)%nat -> order_ok o -> bfv_history b crs w ->
  bfv_result (bConjugateNewSt b o crs (bK (bws w)) c ck) = bConjugateNew (ppQ b) o crs c ck.
Proof. intros N b o crs w c ck WB HD O H. apply (bhistory_sized b WB HD) in H. apply (result_same (ppQ b)). apply (bConjugateNewSt_sim b WB); trivial. apply H. Qed.
Print Assumptions C49_conjugate.
(** the KeySwitcher's own exported multiplications, hoisted or not, from any content of its buffers *)
Theorem C49_keyswitcher : forall N b (o : IdSetModel.order) crs (s : bst N) (op0 op1 : ctT N) (rs : brlkset N) out, wfb N b -> (length (bQ b) mod alpha (ppQ b) = 0)%nat -> order_ok o ->
  bsh b s -> (forall l, ctLevel out = Ok l -> (l < length (bQ b))%nat) ->
  bfv_result (bMulSt false b o crs s op0 op1 None None rs out) = MulAndRelinBFV b o crs op0 op1 rs out.
Proof.
  intros N b o crs s op0 op1 rs out WB HD O SH FT. pose proof (bMulSt_sim b WB HD false o crs s op0 op1 None None None None rs out O SH FT) as X.
  assert (Y : rsim (bsame b) (MulAndRelinBFV b o crs op0 op1 rs out) (bMulSt false b o crs s op0 op1 None None rs out)) by (apply X; [intros; split; exact I|intros; split; reflexivity]).
  unfold rsim, bsame in Y. unfold bfv_result. destruct (MulAndRelinBFV b o crs op0 op1 rs out) as [c|], (bMulSt false b o crs s op0 op1 None None rs out) as [[x d]|]; try contradiction; [|reflexivity]. cbn [fst snd] in Y. destruct Y as [-> _]. reflexivity.
Qed.
Print Assumptions C49_keyswitcher.

(** *** a history: three keys are added and two ciphertexts of different parties are multiplied; then another product is due on the used objects *)
Theorem C49_nonvacuous : exists (w3 w4 : bworld 8) (op : bevop 8) (c : ctT 8),
  wfb 8 exc /\ (length (bQ exc) mod alpha (ppQ exc) = 0)%nat /\ bfv_history exc exc_crs w3 /\ keys (bwk w3) = ["alice"; "bob"; "carol"]%string /\ bfv_operands_sized exc op /\
  bcall exc exc_crs (fun _ => ex_ord) w3 op = Ok (w4, Some c) /\ bfv_history exc exc_crs w4 /\ bwk w4 = bwk w3 /\ incl ["alice"; "bob"; "carol"]%string (keys c).
Proof.
  assert (N0 : NoDup (id0 :: ["alice"; "bob"]%string)) by (repeat constructor; cbn; intuition discriminate).
  assert (N1 : NoDup (id0 :: ["bob"; "carol"]%string)) by (repeat constructor; cbn; intuition discriminate).
  set (c0 := exc_ct ["alice"; "bob"]%string exc_A (exc_X exc_m0 (ex_e 0))). set (c1 := exc_ct ["bob"; "carol"]%string exc_A (exc_X exc_m1 (ex_e 1))).
  destruct (exc_ct_ok ["alice"; "bob"]%string exc_A (exc_X exc_m0 (ex_e 0)) N0) as (W0 & P0 & _). destruct (exc_ct_ok ["bob"; "carol"]%string exc_A (exc_X exc_m1 (ex_e 1)) N1) as (W1 & P1 & _). fold c0 in W0, P0. fold c1 in W1, P1.
  assert (O : forall n : nat, order_ok ((fun _ => ex_ord) n : IdSetModel.order)) by (intros _; exact ex_ord_ok).
  assert (ADD : forall w id, bfv_history exc exc_crs w -> exists w', bfv_history exc exc_crs w' /\ bwk w' = mset seq_dec (bwk w) id (exc_rlk id)).
  { intros w id H. destruct (bcall exc exc_crs (fun _ => ex_ord) w (VAddKey id (exc_rlk id))) as [[w' c]|] eqn:E; [|discriminate E].
    exists w'. split; [exact (bh_call exc exc_crs w (VAddKey id (exc_rlk id)) (fun _ => ex_ord) w' c H O Logic.I E)|exact (bcall_keys exc exc_crs (fun _ => ex_ord) w (VAddKey id (exc_rlk id)) w' c E)]. }
  destruct (ADD _ "alice"%string (bh_new exc exc_crs)) as (w1 & H1 & E1). destruct (ADD _ "bob"%string H1) as (w2 & H2 & E2). destruct (ADD _ "carol"%string H2) as (w3 & H3 & E3). rewrite E2, E1 in E3. clear E1 E2 ADD w1 w2 H1 H2.
  assert (ER : bwk w3 = map (fun id => (id, exc_rlk id)) exc_names) by exact E3.
  assert (GR : forall id, In id exc_names -> brlk_get (bwk w3) id = Ok (exc_rlk id)).
  { intros id H. rewrite ER. cbn [In exc_names] in H. repeat (destruct H as [<-|H]; [reflexivity|]). destruct H. }
  assert (RK : relin_keys exc (fun _ => ex_s) (fun _ => ex_s) exc_crs (bwk w3) 3 1 c0 c1).
  { exists (crs_entry (ppQ exc) (exc_u 0)), (crs_entry (ppQ exc) (exc_u (-3))), (crs_entry (ppQ exc) (exc_u (-1))). split; [reflexivity|]. split; [reflexivity|]. split; [reflexivity|]. split; [apply exc_crs_entry; lia|].
    intros id Hid. rewrite P0, P1 in Hid. exists (exc_rlk id). split; [apply GR; cbn [In exc_names] in *; tauto|]. apply exc_rlk_ok. }
  assert (G : bfv_operands_sized exc (VMul c0 c1)) by (split; [exact (wfct_shape (ppQ exc) _ _ W0)|exact (wfct_shape (ppQ exc) _ _ W1)]).
  destruct (C40_mul 8 exc ex_ord exc_crs c0 c1 (bwk w3) (fun _ => ex_s) (fun _ => ex_s) 3 1 exc_wf exc_div ex_ord_ok W0 W1 RK) as (out & phi0 & phi1 & Mx & E & EM & WO & KO & _).
  pose proof (C49_mul_relin 8 exc ex_ord exc_crs w3 c0 c1 exc_wf exc_div ex_ord_ok H3 G) as EQ. rewrite EM in EQ. unfold bfv_result in EQ.
  destruct (bMulRelinNewSt exc ex_ord exc_crs w3 c0 c1) as [[w4 c]|] eqn:ES; [|discriminate]. injection EQ as ->.
  assert (EC : bcall exc exc_crs (fun _ => ex_ord) w3 (VMul c0 c1) = Ok (w4, Some out)) by (cbn [bcall]; rewrite ES; reflexivity).
  exists w3, w4, (VMul c0 c1), out. split; [exact exc_wf|]. split; [exact exc_div|]. split; [exact H3|]. split; [rewrite ER; reflexivity|]. split; [exact G|]. split; [exact EC|].
  split; [exact (bh_call exc exc_crs w3 (VMul c0 c1) (fun _ => ex_ord) w4 (Some out) H3 O G EC)|]. split; [exact (bcall_keys _ _ _ _ _ _ _ EC)|].
  intros x Hx. apply KO. assert (X : In x (parties c0) \/ In x (parties c1)) by (rewrite P0, P1; cbn [In] in *; tauto).
  destruct X as [X|X]; apply in_parties in X; [left|right]; exact (proj2 X).
Qed.
Print Assumptions C49_nonvacuous.
