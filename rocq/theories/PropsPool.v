(** C31: no scratch buffer of an Evaluator, its KeySwitcher or a RelinearizationKeySet influences a result.
    The model (KsPool.v, EvalPool.v) keeps every buffer of the code as state; [call] runs one exported operation on that state. *)
From Flocq Require Import Core BinarySingleNaN.
From Coq Require Import Znumtheory Setoid Morphisms Reals Lra.
From Verif Require Import Base IdSetModel IdSetSpec IdSetProofs KeySetModel NumTheory Negacyclic Ntt Word FloatModel CkksFloat BasisExt BasisExtProofs DecompProofs Rows RlweModel KeyGenModel SchemeSpec ExtProd Galois KeyGenProofs Instance CtModel CtSpec CtProofs EncDecProofs KeySwitchModel Digits KsLoops RotProofs CkksModel CkksProofs PropsKeySwitch PropsCkks PropsCkksEx PropsEnc KsPool KsPoolProofs EvalPool EvalPoolProofs.
Open Scope Z_scope.

(** ** Specification *)
Section Spec.
  Context {N : nat} (pp : rparams) (crs : crsT N) (pscale : f64).
  (** every buffer has the size it was created with; nothing is said about its content *)
  Definition buffers_sized (w : world N) : Prop := wok pp w.
  (** the operands of a call are ciphertexts of the scheme's sizes *)
  Definition operands_sized (op : evop N) : Prop := goodop pp op.
  (** the states an Evaluator and its key set go through. A call that panics (and is recovered from) leaves arbitrary data in the buffers, but cannot resize
      them, add keys or remove keys (keys change in AddRelinearizationKey and DelRelinearizationKey only, which do not panic). *)
  Inductive history : world N -> Prop :=
  | h_new : history (newWorld pp)
  | h_call w op (o : nat -> order) w' c : history w -> (forall n, order_ok (o n)) -> operands_sized op -> call pp crs pscale o w op = Ok (w', c) -> history w'
  | h_panic w op (o : nat -> order) w' : history w -> call pp crs pscale o w op = Panic -> buffers_sized w' -> wrs w' = wrs w -> history w'.
  (** a new Evaluator, and a new key set into which the keys rs are put *)
  Definition fresh (rs : rlkset N) : world N :=
    W (NewKeySwitcher pp) (NewEvaluator pp) rs (map (fun e => (fst e, newSwk pp)) rs) (map (fun e => (fst e, newSwk pp)) rs).
  (** the two runs have the same outcome: both panic, or both return the same ciphertext (nothing, for the key operations) *)
  Definition same_outcome (m m' : res (world N * option (ckct N))) : Prop :=
    match m, m' with Ok (_, c), Ok (_, c') => c = c' | Panic, Panic => True | _, _ => False end.
End Spec.

Section Pool.
  Context {N : nat} (pp : rparams) (WF : wfp N pp).
  Lemma call_out crs pscale (o : nat -> order) (w w' : world N) op : (forall n, order_ok (o n)) -> wok pp w -> wok pp w' -> wrs w = wrs w' -> goodop pp op -> same_outcome (call pp crs pscale o w op) (call pp crs pscale o w' op).
  Proof.
    intros O WO WO' E G. pose proof (call_sim pp WF crs pscale o w w' op O WO WO' E G) as H. unfold rsim, cpost in H. unfold same_outcome.
    destruct (call pp crs pscale o w op) as [[a b]|], (call pp crs pscale o w' op) as [[a' b']|]; trivial. exact (proj1 H).
  Qed.
  Lemma history_sized crs pscale (w : world N) : history pp crs pscale w -> wok pp w.
  Proof.
    induction 1 as [|w op o w' c H IH O G E|w op o w' H IH E S R]; [apply newWorld_ok|  |exact S].
    pose proof (call_sim pp WF crs pscale o w w op O IH IH eq_refl G) as X. rewrite E in X. exact (proj1 (proj2 X)).
  Qed.
  Lemma pool_new (rs : rlkset N) id : mget seq_dec (map (fun e => (fst e, newSwk pp : swk N)) rs) id = if in_dec seq_dec id (keys rs) then Some (newSwk pp) else None.
  Proof.
    induction rs as [|[x k] rs IH]; [reflexivity|]. cbn [map mget fst]. rewrite IH. unfold keys. cbn [map fst]. destruct (seq_dec id x) as [->|NE].
    - destruct (in_dec seq_dec x (x :: map fst rs)) as [_|H]; [reflexivity|destruct H; left; reflexivity].
    - destruct (in_dec seq_dec id (map fst rs)), (in_dec seq_dec id (x :: map fst rs)) as [H|H]; trivial; exfalso; cbn in H; intuition congruence.
  Qed.
  Lemma fresh_sized (rs : rlkset N) : wok pp (fresh pp rs).
  Proof.
    destruct (newWorld_ok pp (N := N)) as (A & B & _). unfold wok, fresh. cbn [wks wev wrs wh0 wh1]. split; [exact A|]. split; [exact B|].
    assert (X : hshape pp (map (fun e => (fst e, newSwk pp : swk N)) rs)). { intros id d. rewrite pool_new. destruct (in_dec _ _ _); [intros E; injection E as <-; apply shS_new|discriminate]. }
    split; [exact X|]. split; [exact X|]. intros id H. apply (mget_In_keys seq_dec) in H. rewrite pool_new. destruct (in_dec seq_dec id (keys rs)); [split; discriminate|contradiction].
  Qed.
End Pool.

(** ** C31 *)
(** whatever ran before on the Evaluator and its key set, a call has the outcome it has on new ones holding the same keys *)
Theorem C31_no_memory : forall N pp crs pscale (o : nat -> IdSetModel.order) (w : world N) op, wfp N pp -> (forall n, order_ok (o n)) ->
  history pp crs pscale w -> operands_sized pp op -> same_outcome (call pp crs pscale o w op) (call pp crs pscale o (fresh pp (wrs w)) op).
Proof. intros N pp crs pscale o w op WF O H G. apply call_out; trivial; [apply (history_sized pp WF crs pscale); exact H|apply fresh_sized; exact WF]. Qed.
Print Assumptions C31_no_memory.
(** the same for any content of the buffers *)
Theorem C31_any_buffers : forall N pp crs pscale (o : nat -> IdSetModel.order) (w w' : world N) op, wfp N pp -> (forall n, order_ok (o n)) ->
  buffers_sized pp w -> buffers_sized pp w' -> wrs w = wrs w' -> operands_sized pp op -> same_outcome (call pp crs pscale o w op) (call pp crs pscale o w' op).
Proof. intros N pp crs pscale o w w' op WF O B B' E G. apply call_out; assumption. Qed.
Print Assumptions C31_any_buffers.
(** two histories that end with the same keys: every later sequence of calls returns the same ciphertexts, panics included *)
Fixpoint outcomes {N} pp (crs : crsT N) pscale (o : nat -> nat -> IdSetModel.order) (w : world N) (ops : list (evop N)) : list (option (option (ckct N))) :=
  match ops with
  | nil => nil
  | op :: ops => match call pp crs pscale (o (length ops)) w op with Ok (w', c) => Some c :: outcomes pp crs pscale o w' ops | Panic => [None] end
  end.
Lemma call_keys {N} pp (crs : crsT N) pscale (o : nat -> IdSetModel.order) (w : world N) op w1 c : call pp crs pscale o w op = Ok (w1, c) ->
  wrs w1 = match op with EAddKey id k => mset seq_dec (wrs w) id k | EDelKey id => mdel seq_dec (wrs w) id | _ => wrs w end.
Proof.
  destruct op; cbn [call]; intros H.
  - destruct (AddNew _ _ _ _ _) as [[a b]|]; cbn [rbind] in H; [injection H as <- _; reflexivity|discriminate].
  - destruct (SubNew _ _ _ _ _) as [[a b]|]; cbn [rbind] in H; [injection H as <- _; reflexivity|discriminate].
  - destruct (MulPtxtNew _ _ _ _ _ _ _) as [[a b]|]; cbn [rbind] in H; [injection H as <- _; reflexivity|discriminate].
  - destruct (MulRelinNewSt _ _ _ _ _ _ _ _ _ _ _) as [[[[a b] d] e]|]; cbn [rbind] in H; [injection H as <- _; reflexivity|discriminate].
  - destruct (HoistedFormSt _ _ _ c0) as [[a b]|]; cbn [rbind] in H; [|discriminate]. destruct (HoistedFormSt _ _ _ c1) as [[a' b']|]; cbn [rbind] in H; [|discriminate].
    destruct (MulRelinHoistedNewSt _ _ _ _ _ _ _ _ _ _) as [[a'' b'']|]; cbn [rbind] in H; [injection H as <- _; reflexivity|discriminate].
  - destruct (RotateNewSt _ _ _ _ _ _ _) as [[a b]|]; cbn [rbind] in H; [injection H as <- _; reflexivity|discriminate].
  - destruct (HoistedFormSt _ _ _ _) as [[a b]|]; cbn [rbind] in H; [|discriminate]. destruct (RotateHoistedNewSt _ _ _ _ _ _ _ _) as [[a' b']|]; cbn [rbind] in H; [injection H as <- _; reflexivity|discriminate].
  - destruct (ConjugateNewSt _ _ _ _ _ _) as [[a b]|]; cbn [rbind] in H; [injection H as <- _; reflexivity|discriminate].
  - injection H as <- _. reflexivity.
  - injection H as <- _. reflexivity.
Qed.
Theorem C31_histories_agree : forall N pp crs pscale (o : nat -> nat -> IdSetModel.order) (w w' : world N) ops, wfp N pp -> (forall n m, order_ok (o n m)) ->
  history pp crs pscale w -> history pp crs pscale w' -> wrs w = wrs w' -> (forall op, In op ops -> operands_sized pp op) ->
  outcomes pp crs pscale o w ops = outcomes pp crs pscale o w' ops.
Proof.
  intros N pp crs pscale o w w' ops WF O H H'. apply (history_sized pp WF) in H. apply (history_sized pp WF) in H'. revert w w' H H'.
  induction ops as [|op ops IH]; intros w w' H H' E G; [reflexivity|]. cbn [outcomes].
  pose proof (call_sim pp WF crs pscale (o (length ops)) w w' op (O _) H H' E (G op (or_introl eq_refl))) as X. unfold rsim, cpost in X.
  destruct (call pp crs pscale (o (length ops)) w op) as [[a c]|] eqn:E1, (call pp crs pscale (o (length ops)) w' op) as [[a' c']|] eqn:E2; try contradiction; [|reflexivity].
  cbn [fst snd] in X. destruct X as (-> & A & A'). f_equal. apply IH; trivial; [|intros x Hx; apply G; right; exact Hx].
  rewrite (call_keys _ _ _ _ _ _ _ _ E1), (call_keys _ _ _ _ _ _ _ _ E2). destruct op; rewrite ?E; reflexivity.
Qed.
Print Assumptions C31_histories_agree.

(** The operations with local buffers (CkksModel.v) are what the ones with pooled buffers compute, so the theorems about the former (C20, C22-C24, C44) hold for the latter after every history. *)
Definition outcome {N A} (m : res (A * ckct N)) : res (ckct N) := match m with Ok (_, c) => Ok c | Panic => Panic end.
Theorem C31_mul_relin : forall N pp (o : IdSetModel.order) crs pscale (w : world N) c0 c1 same, wfp N pp -> order_ok o -> history pp crs pscale w ->
  operands_sized pp (EMul c0 c1 same) -> (forall id, In id (parties (cv c0)) \/ In id (parties (cv c1)) -> mget seq_dec (wrs w) id <> None) ->
  outcome (MulRelinNewSt pp o crs pscale (wks w) (wh0 w) (wh1 w) c0 c1 same (wrs w)) = MulRelinNew pp o crs pscale c0 c1 same (wrs w).
Proof.
  intros N pp o crs pscale w c0 c1 same WF O H G HK. apply (history_sized pp WF) in H. destruct H as (SH & _ & H0 & H1 & HR). destruct G as (G0 & G1 & SM).
  pose proof (MulRelinNewSt_sim pp WF o crs pscale (wks w) (wh0 w) (wh1 w) c0 c1 same (wrs w) O SH H0 H1 G0 G1 SM HR HK) as X. unfold rsim, mulpost in X. unfold outcome.
  destruct (MulRelinNew pp o crs pscale c0 c1 same (wrs w)) as [c|], (MulRelinNewSt pp o crs pscale (wks w) (wh0 w) (wh1 w) c0 c1 same (wrs w)) as [[a b]|]; try contradiction; [|reflexivity].
  destruct X as [-> _]. reflexivity.
Qed.
Print Assumptions C31_mul_relin.
Lemma outcome_ksame {N} pp (m : res (ckct N)) (n : res (kst N * ckct N)) : rsim (ksame pp) m n -> outcome n = m.
Proof. unfold rsim, ksame, outcome. destruct m as [c|], n as [[a b]|]; try contradiction; [|reflexivity]. cbn [fst snd]. intros [-> _]. reflexivity. Qed.
Theorem C31_rotate : forall N pp (o : nat -> IdSetModel.order) crs pscale (w : world N) c k rk, wfp N pp -> (forall n, order_ok (o n)) -> history pp crs pscale w ->
  operands_sized pp (ERot c k rk) -> outcome (RotateNewSt pp o crs (wks w) c k rk) = RotateNew pp o crs c k rk.
Proof.
  intros N pp o crs pscale w c k rk WF O H G. apply (history_sized pp WF) in H. destruct H as (SH & _). apply (outcome_ksame pp). apply (RotateNewSt_sim pp WF o crs (wks w) c k rk O SH). apply (good_fits pp c G).
Qed.
Print Assumptions C31_rotate.
Theorem C31_conjugate : forall N pp (o : IdSetModel.order) crs pscale (w : world N) c ck, wfp N pp -> order_ok o -> history pp crs pscale w ->
  operands_sized pp (EConj c ck) -> outcome (ConjugateNewSt pp o crs (wks w) c ck) = ConjugateNew pp o crs c ck.
Proof.
  intros N pp o crs pscale w c ck WF O H G. apply (history_sized pp WF) in H. destruct H as (SH & _). apply (outcome_ksame pp). apply (ConjugateNewSt_sim pp WF o crs (wks w) c ck O SH). apply (good_fits pp c G).
Qed.
Print Assumptions C31_conjugate.

(** *** a history: a key is added, then two ciphertexts with different levels and parties are added; then an operation is due on the used objects *)
Example C31_nonvacuous : exists (w1 w2 w3 : world 8) (op1 op2 : evop 8) (c : ckct 8),
  wfp 8 ex_pp /\ history ex_pp ex_crs (f_of_int 200) w3 /\ call ex_pp ex_crs (f_of_int 200) (fun _ => ex_ord) (newWorld ex_pp) op1 = Ok (w2, None) /\
  call ex_pp ex_crs (f_of_int 200) (fun _ => ex_ord) w2 op2 = Ok (w3, Some c) /\ keys (wrs w3) = ["alice"]%string /\
  wrs w1 = wrs w3 /\ history ex_pp ex_crs (f_of_int 200) w1 /\ operands_sized ex_pp op2 /\ keys (cv c) <> nil.
Proof.
  set (c0 := CK (PropsCkksEx.ex_ct 3 ["alice"%string]) sc1). set (c1 := CK (PropsCkksEx.ex_ct 2 ["alice"; "bob"]%string) sc1).
  assert (W0 : wfct ex_pp 2 false (cv c0)) by (apply (PropsCkksEx.ex_ct_wf 3); [lia|exact ex_nd1]). assert (W1 : wfct ex_pp 1 false (cv c1)) by (apply (PropsCkksEx.ex_ct_wf 2); [lia|exact ex_nd2]).
  assert (G : operands_sized ex_pp (EAdd c0 c1)).
  { split; [exists 2%nat|exists 1%nat]; change (length (Qm ex_pp)) with 3%nat; (split; [lia|]); [exact (wfct_shape ex_pp _ _ W0)|exact (wfct_shape ex_pp _ _ W1)]. }
  set (op1 := EAddKey "alice"%string (ex_rlk "alice"%string) : evop 8).
  destruct (C18_add 8 ex_pp ex_ord (NewEvaluator ex_pp) c0 c1 2 1 ex_wf ex_ord_ok ex_pool) as (st & v & A & _ & B & _);
    [change (length (Qm ex_pp)) with 3%nat; lia|change (length (Qm ex_pp)) with 3%nat; lia|exact W0|exact W1|reflexivity|].
  assert (O : forall n : nat, order_ok ((fun _ => ex_ord) n : IdSetModel.order)) by (intros _; exact ex_ord_ok).
  eexists _, _, _, op1, (EAdd c0 c1), (CK v (csc c0)).
  assert (E1 : call ex_pp ex_crs (f_of_int 200) (fun _ => ex_ord) (newWorld ex_pp) op1 = Ok (W (NewKeySwitcher ex_pp) (NewEvaluator ex_pp) [("alice"%string, ex_rlk "alice"%string)] [("alice"%string, newSwk ex_pp)] [("alice"%string, newSwk ex_pp)], None)) by reflexivity.
  assert (E2 : call ex_pp ex_crs (f_of_int 200) (fun _ => ex_ord) (W (NewKeySwitcher ex_pp) (NewEvaluator ex_pp) [("alice"%string, ex_rlk "alice"%string)] [("alice"%string, newSwk ex_pp)] [("alice"%string, newSwk ex_pp)]) (EAdd c0 c1)
    = Ok (W (NewKeySwitcher ex_pp) st [("alice"%string, ex_rlk "alice"%string)] [("alice"%string, newSwk ex_pp)] [("alice"%string, newSwk ex_pp)], Some (CK v (csc c0)))).
  { cbn [call wev wks wrs wh0 wh1]. rewrite A. reflexivity. }
  pose proof (h_call ex_pp ex_crs (f_of_int 200) _ op1 (fun _ => ex_ord) _ _ (h_new _ _ _) O I E1) as H1. pose proof (h_call _ _ _ _ _ _ _ _ H1 O G E2) as H2.
  split; [exact ex_wf|]. split; [exact H2|]. split; [exact E1|]. split; [exact E2|]. split; [reflexivity|]. split; [|split; [exact H1|split; [exact G|]]]; [reflexivity|].
  destruct B as (_ & Z & _). cbn [cv]. intros E. rewrite E in Z. destruct Z.
Qed.
