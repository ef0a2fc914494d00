(** C55: programs that hold ciphertexts and call one mkckks Evaluator, on shared mutable storage (HeapEval.v), behave like programs on independent values. *)
From Coq Require Import Permutation.
From Verif Require Import Base IdSetModel KeySetModel NumTheory Negacyclic Ntt Word BasisExt Rows RlweModel KeyGenModel Galois CtSpec CtModel KeySwitchModel FloatModel CkksFloat CkksModel CtProofs Instance HeapModel HeapProofs HeapEval HeapEvalProofs HeapWorld PropsEnc.
Open Scope Z_scope.

(** *** specification *)
(** the polynomials a ciphertext refers to *)
Definition refs (c : hct) : list nat := map snd c.
(** every reference held by the program or by the Evaluator *)
Definition all_refs {N} (w : hworld N) : list nat := refs (hwpool w) ++ concat (map (fun c => refs (hv c)) (hwcts w)).
(** the caller runs [prog] on a fresh Evaluator; [o n m] are the iteration orders of the maps in call n *)
Definition reaches {N} pp (e : henv N) (o : nat -> nat -> order) prog (w : hworld N) : Prop :=
  (forall n m, order_ok (o n m)) /\ (forall c, In (HPut c) prog -> NoDup (keys (cv c))) /\ hrun pp e o 0 prog (hinit pp) = Ok w.

Section C55.
  Context {N : nat}.
  Implicit Types (pp : rparams) (e : henv N) (prog : list (hop N)) (w : hworld N).

  Lemma good prog : (forall c, In (HPut c) prog -> NoDup (keys (cv c))) -> forall i, In i prog -> gooddata i.
  Proof. intros H i I. destruct i; cbn [gooddata]; trivial. apply H. exact I. Qed.
  (** each call returns, panics and computes exactly as on independent values *)
  Theorem C55_values : forall pp e (o : nat -> nat -> order) prog, (forall n m, order_ok (o n m)) -> (forall c, In (HPut c) prog -> NoDup (keys (cv c))) ->
    match vrun pp e o 0 prog (VW (NewEvaluator pp) nil) with
    | Ok u => exists w, hrun pp e o 0 prog (hinit pp) = Ok w /\ contents w = vwcts u
    | Panic => hrun pp e o 0 prog (hinit pp) = Panic
    end.
  Proof.
    intros pp e o prog OO G. pose proof (run_sim pp e o OO prog 0 (hinit pp) _ (good prog G) (init_same pp)) as H. destruct (vrun pp e o 0 prog (VW (NewEvaluator pp) nil)) as [u|]; [|exact H].
    destruct H as (w & X & S). exists w. split; [exact X|]. apply S.
  Qed.
  Lemma reach_same pp e o prog w : reaches pp e o prog w -> exists u, same_world w u.
  Proof.
    intros (OO & G & X). pose proof (run_sim pp e o OO prog 0 (hinit pp) _ (good prog G) (init_same pp)) as H. destruct (vrun pp e o 0 prog (VW (NewEvaluator pp) nil)) as [u|]; [|congruence].
    destruct H as (w' & X' & S). exists u. congruence.
  Qed.
  Lemma vcall_rest pp e (o : nat -> order) (u u' : vworld N) i k c : vcall pp e o u i = Ok u' -> nth_error (vwcts u) k = Some c -> dest i <> Some k -> nth_error (vwcts u') k = Some c.
  Proof.
    intros X E D. assert (LK : (k < length (vwcts u))%nat) by (apply nth_error_Some; congruence).
    assert (NEW : forall st out, nth_error (vwcts (VW st (vwcts u ++ [out]))) k = Some c) by (intros; cbn [vwcts]; rewrite nth_error_app1 by exact LK; exact E).
    assert (UPD : forall st b out, b <> k -> nth_error (vwcts (VW st (upd (vwcts u) b out))) k = Some c).
    { intros st b out NE. cbn [vwcts]. rewrite <- E. clear - NE. revert b k NE. induction (vwcts u) as [|y l IH]; intros [|b] [|k] NE; cbn; try reflexivity; [congruence|]. apply IH. congruence. }
    destruct i; cbn [vcall dest] in *; unfold rbind in X;
      repeat match type of X with context [match ?r with Ok _ => _ | Panic => _ end] => destruct r; [|discriminate] | context [let (_, _) := ?r in _] => destruct r end;
      injection X as <-; apply NEW || (apply UPD; congruence).
  Qed.
  (** a call changes no ciphertext other than its destination: not its operands, not earlier results, not copies *)
  Theorem C55_untouched : forall pp e o prog w (o' : nat -> order) i w', reaches pp e o prog w -> (forall n, order_ok (o' n)) -> (forall c, i = HPut c -> NoDup (keys (cv c))) -> hcall pp e o' w i = Ok w' ->
    forall k c, nth_error (contents w) k = Some c -> dest i <> Some k -> nth_error (contents w') k = Some c.
  Proof.
    intros pp e o prog w o' i w' RW OO G X k c E D. destruct (reach_same pp e o prog w RW) as (u & S).
    assert (GI : gooddata i) by (destruct i; cbn [gooddata]; trivial; apply G; reflexivity).
    pose proof (call_sim pp e o' w u i OO GI S) as H. destruct (vcall pp e o' u i) as [u'|] eqn:V; [|congruence]. destruct H as (w1 & X1 & S1). assert (w1 = w') by congruence. subst w1.
    destruct S as (_ & _ & CT & _). destruct S1 as (_ & _ & CT1 & _). rewrite CT1. rewrite CT in E. apply (vcall_rest _ _ _ _ _ _ _ _ V E D).
  Qed.
  Lemma nodup_concat (L : list hct) : (forall c, In c L -> NoDup (refs c)) -> (forall i j ci cj, nth_error L i = Some ci -> nth_error L j = Some cj -> i <> j -> disj ci cj) -> NoDup (concat (map refs L)).
  Proof.
    induction L as [|c L IH]; intros K D; cbn [map concat]; [constructor|].
    assert (T : NoDup (concat (map refs L))). { apply IH; [intros d I; apply K; right; exact I|]. intros i j ci cj Ei Ej NE. apply (D (S i) (S j)); [exact Ei|exact Ej|congruence]. }
    assert (DJ : forall r, In r (refs c) -> ~ In r (concat (map refs L))).
    { intros r Hr I. apply in_concat in I. destruct I as (l & I & J). apply in_map_iff in I. destruct I as (d & <- & I). destruct (In_nth_error _ _ I) as (j & Ej). apply (D 0%nat (S j) c d eq_refl Ej ltac:(discriminate) r Hr J). }
    specialize (K c (or_introl eq_refl)). clear - K T DJ. revert K DJ. generalize (refs c) as l. induction l as [|x l IHl]; intros K DJ; [exact T|]. inversion K as [|? ? NI ND]; subst. cbn [app]. constructor.
    - intros I. apply in_app_iff in I. destruct I as [I|I]; [contradiction|]. apply (DJ x (or_introl eq_refl) I).
    - apply IHl; [exact ND|]. intros r Hr. apply DJ. right. exact Hr.
  Qed.
  (** after any history every polynomial is referred to once, by one component of one ciphertext or by the scratch space of the Evaluator *)
  Theorem C55_no_sharing : forall pp e o prog w, reaches pp e o prog w -> NoDup (all_refs w) /\ forall r, In r (all_refs w) -> (r < length (hwh w))%nat.
  Proof.
    intros pp e o prog w RW. destruct (reach_same pp e o prog w RW) as (u & ((K & D) & _)).
    assert (EQ : all_refs w = concat (map refs (owners w))). { unfold all_refs, owners. cbn [map concat]. rewrite map_map. reflexivity. }
    rewrite EQ. split.
    - apply nodup_concat; [|exact D]. intros c I. apply (K c I).
    - intros r I. apply in_concat in I. destruct I as (l & I & J). apply in_map_iff in I. destruct I as (c & <- & I). apply (proj2 (K c I) r J).
  Qed.
  Lemma write_other (h h' : heap N) (c d : hct) id p : disj d c -> hwrite h c id p = Ok h' -> view h' d = view h d.
  Proof.
    intros DJ X. unfold hwrite, href in X. destruct (mget seq_dec c id) as [r|] eqn:E; cbn [rbind] in X; [|discriminate]. destruct (hload h r); cbn [rbind] in X; [|discriminate]. injection X as <-.
    assert (IR : In r (refs c)) by (apply (mget_ref _ _ _ E)).
    unfold view. apply map_ext_in. intros [k' r'] I. f_equal. assert (r <> r') by (intros <-; apply (DJ r (in_map snd _ _ I) IR)). clear - H. revert h r' H. induction r as [|r IH]; intros [|x h] [|r'] H; cbn; try reflexivity; [congruence|]. apply IH. congruence.
  Qed.
  (** so whatever the caller writes into one ciphertext later, no other ciphertext changes *)
  Theorem C55_write : forall pp e o prog w, reaches pp e o prog w -> forall j c id p h', nth_error (hwcts w) j = Some c -> hwrite (hwh w) (hv c) id p = Ok h' ->
    forall k d, nth_error (hwcts w) k = Some d -> k <> j -> view h' (hv d) = view (hwh w) (hv d).
  Proof.
    intros pp e o prog w RW j c id p h' EJ X k d EK NE. destruct (reach_same pp e o prog w RW) as (u & (SP & _)). pose proof (sep_2 w k j d c SP EK EJ NE) as DJ.
    apply (write_other _ _ _ _ _ _ DJ X).
  Qed.
End C55.
Print Assumptions C55_values.
Print Assumptions C55_untouched.
Print Assumptions C55_no_sharing.
Print Assumptions C55_write.

(** *** an example: two parties, two moduli; the program copies, adds, subtracts, multiplies in place, rescales in place, drops a level, and panics at a level drop too many *)
Definition hx_pp : rparams := RP [Mod 257 16; Mod 193 81] [Mod 241 64] 1.
Definition hx_ct (id : string) (a b : Z) : ckct 2 := CK [(id0, Pol [mkR (fun _ => a); mkR (fun _ => a)] false); (id, Pol [mkR (fun _ => b); mkR (fun _ => b)] false)] (f_of_int 4096).
Definition hx_env : henv 2 := HE nil (f_of_int 16) nil nil nil.
Definition hx_prog : list (hop 2) := [HPut (hx_ct "alice" 5 7); HPut (hx_ct "bob" 9 11); HCopy 0; HAdd 0 1; HSub 3 2; HConst 0 (CInt 3) 0; HAdd 2 2; HDrop 3 1; HDropNew 0 1; HRescale 1 (f_of_int 1) 1].
Definition hx_ord (n m : nat) : order := ex_ord.
(** the constant coefficients modulo the first prime, per ciphertext and component *)
Definition hx_show (r : res (hworld 2)) : list (list (string * Z * nat)) :=
  match r with Ok w => map (fun c => map (fun '(id, p) => (id, co (nth 0 (prows p) R0) 0, length (prows p))) (cv c)) (contents w) | Panic => nil end.
Theorem C55_example : (forall n m, order_ok (hx_ord n m)) /\ (forall c, In (HPut c) hx_prog -> NoDup (keys (cv c))) /\
  hx_show (hrun hx_pp hx_env hx_ord 0 hx_prog (hinit hx_pp)) =
    [[(id0, 15, 2%nat); ("alice"%string, 21, 2%nat)];
     [(id0, 0, 1%nat); ("bob"%string, 0, 1%nat)];
     [(id0, 5, 2%nat); ("alice"%string, 7, 2%nat)];
     [(id0, 14, 1%nat); ("alice"%string, 7, 1%nat); ("bob"%string, 11, 1%nat)];
     [(id0, 9, 2%nat); ("alice"%string, 0, 2%nat); ("bob"%string, 11, 2%nat)];
     [(id0, 10, 2%nat); ("alice"%string, 14, 2%nat)];
     [(id0, 15, 1%nat); ("alice"%string, 21, 1%nat)]] /\
  hrun hx_pp hx_env hx_ord 0 (hx_prog ++ [HDrop 3 3]) (hinit hx_pp) = Panic.
Proof.
  split; [intros; exact ex_ord_ok|]. split.
  - intros c I. cbn [hx_prog In] in I. repeat (destruct I as [I|I]; [try discriminate; injection I as <-; cbn; repeat (constructor; [cbn; intuition discriminate|]); constructor|]). destruct I.
  - split; vm_compute; reflexivity.
Qed.
