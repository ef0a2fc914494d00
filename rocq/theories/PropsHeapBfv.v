(** C56: programs that hold ciphertexts and call the mkbfv Evaluator, on shared mutable storage (HeapBfv.v), behave like programs on independent values. *)
From Coq Require Import Permutation.
From Verif Require Import Base IdSetModel KeySetModel NumTheory Negacyclic Ntt Word BasisExt Rows RlweModel KeyGenModel Galois CtSpec CtModel KeySwitchModel FloatModel CkksFloat CkksModel BfvModel BfvMulModel CtProofs HeapModel HeapProofs HeapEval HeapEvalProofs HeapWorld HeapBfv HeapBfvProofs PropsEnc PropsHeap.
Open Scope Z_scope.

(** *** specification *)
(** every reference held by the program *)
Definition ball_refs {N} (w : hbworld N) : list nat := concat (map refs (bwcts w)).
Definition breaches {N} b (e : hbenv N) (o : nat -> nat -> order) prog (w : hbworld N) : Prop :=
  (forall n m, order_ok (o n m)) /\ hbrun b e o 0 prog (HBW nil nil) = Ok w.

Section C56.
  Context {N : nat}.
  Implicit Types (b : bparams) (e : hbenv N) (prog : list (hbop N)) (w : hbworld N).
  (** each call returns, panics and computes exactly as on independent values *)
  Theorem C56_values : forall b e (o : nat -> nat -> order) prog, (forall n m, order_ok (o n m)) ->
    match vbrun b e o 0 prog nil with
    | Ok u => exists w, hbrun b e o 0 prog (HBW nil nil) = Ok w /\ bcontents w = u
    | Panic => hbrun b e o 0 prog (HBW nil nil) = Panic
    end.
  Proof.
    intros b e o prog OO. pose proof (brun_sim b e o OO prog 0 (HBW nil nil) nil binit_same) as H. destruct (vbrun b e o 0 prog nil) as [u|]; [|exact H].
    destruct H as (w & X & S). exists w. split; [exact X|]. apply S.
  Qed.
  Lemma breach_same b e o prog w : breaches b e o prog w -> bsame w (bcontents w).
  Proof.
    intros (OO & X). pose proof (brun_sim b e o OO prog 0 (HBW nil nil) nil binit_same) as H. destruct (vbrun b e o 0 prog nil) as [u|]; [|congruence].
    destruct H as (w' & X' & S). replace w with w' by congruence. split; [apply S|reflexivity].
  Qed.
  (** a call changes no ciphertext: it appends its result *)
  Theorem C56_untouched : forall b e o prog w (o' : nat -> order) i w', breaches b e o prog w -> (forall n, order_ok (o' n)) -> hbcall b e o' w i = Ok w' -> exists c, bcontents w' = bcontents w ++ [c].
  Proof.
    intros b e o prog w o' i w' RW OO X. pose proof (bcall_sim b e o' w (bcontents w) i OO (breach_same b e o prog w RW)) as H. destruct (vbcall b e o' (bcontents w) i) as [u'|] eqn:V; [|congruence].
    destruct H as (w1 & X1 & (_ & E)). assert (w1 = w') by congruence. subst w1. rewrite E. clear - V. revert V. generalize (bcontents w). intros u V.
    destruct i; cbn [vbcall] in V; unfold rbind in V; repeat match type of V with context [match ?r with Ok _ => _ | Panic => _ end] => destruct r; [|discriminate] end; injection V as <-; eexists; reflexivity.
  Qed.
  (** after any history every polynomial is referred to once, by one component of one ciphertext *)
  Theorem C56_no_sharing : forall b e o prog w, breaches b e o prog w -> NoDup (ball_refs w) /\ forall r, In r (ball_refs w) -> (r < length (bwh w))%nat.
  Proof.
    intros b e o prog w RW. destruct (breach_same b e o prog w RW) as ((K & D) & _). unfold ball_refs. split.
    - apply nodup_concat; [|exact D]. intros c I. apply (K c I).
    - intros r I. apply in_concat in I. destruct I as (l & I & J). apply in_map_iff in I. destruct I as (c & <- & I). apply (proj2 (K c I) r J).
  Qed.
  (** so whatever the caller writes into one ciphertext later, no other ciphertext changes *)
  Theorem C56_write : forall b e o prog w, breaches b e o prog w -> forall j c id p h', nth_error (bwcts w) j = Some c -> hwrite (bwh w) c id p = Ok h' ->
    forall k d, nth_error (bwcts w) k = Some d -> k <> j -> view h' d = view (bwh w) d.
  Proof.
    intros b e o prog w RW j c id p h' EJ X k d EK NE. destruct (breach_same b e o prog w RW) as ((_ & D) & _). pose proof (D k j d c EK EJ NE) as DJ. apply (write_other _ _ _ _ _ _ DJ X).
  Qed.
End C56.
Print Assumptions C56_values.
Print Assumptions C56_untouched.
Print Assumptions C56_no_sharing.
Print Assumptions C56_write.

(** *** an example: two parties; a product that panics for want of a key *)
Definition hbx : bparams := BP [Mod 257 16] [Mod 193 81] [Mod 241 64; Mod 17 4] 5.
Definition hbx_ct (id : string) (a b : Z) : ctT 2 := [(id0, Pol [mkR (fun _ => a)] false); (id, Pol [mkR (fun _ => b)] false)].
Definition hbx_env : hbenv 2 := HBE nil nil nil nil.
Definition hbx_prog : list (hbop 2) := [BPut (hbx_ct "alice" 5 7); BPut (hbx_ct "bob" 9 11); BAdd 0 1; BSub 2 0; BCopy 2; BRot 0 0; BSub 0 1].
Definition hbx_show (r : res (hbworld 2)) : list (list (string * Z)) := match r with Ok w => map (map (fun '(id, p) => (id, co (nth 0 (prows p) R0) 0))) (bcontents w) | Panic => nil end.
Theorem C56_example : (forall n m, order_ok (hx_ord n m)) /\
  hbx_show (hbrun hbx hbx_env hx_ord 0 hbx_prog (HBW nil nil)) =
    [[(id0, 5); ("alice"%string, 7)]; [(id0, 9); ("bob"%string, 11)];
     [(id0, 14); ("alice"%string, 7); ("bob"%string, 11)]; [(id0, 9); ("alice"%string, 0); ("bob"%string, 11)];
     [(id0, 14); ("alice"%string, 7); ("bob"%string, 11)]; [(id0, 5); ("alice"%string, 7)];
     [(id0, 253); ("alice"%string, 7); ("bob"%string, 246)]] /\
  hbrun hbx hbx_env hx_ord 0 (hbx_prog ++ [BMul 0 1]) (HBW nil nil) = Panic.
Proof. split; [intros; exact ex_ord_ok|]. split; vm_compute; reflexivity. Qed.
