(** A concrete case of C62, every hypothesis met: alice and bob encrypt eight small integers each, the server multiplies, rotates (an amount that needs two key switches), swaps the rows, copies, adds and subtracts,
    and Decrypt returns these eight integers. *)
From Verif Require Import Base IdSetModel KeySetModel NumTheory Pock Negacyclic Ntt Word BasisExt BasisExtProofs DecompProofs BasisSpec Rows RlweModel SchemeSpec ExtProd ExtProps KeyGenModel Galois KeyGenProofs CtModel CtSpec CtProofs EncDecProofs EncMsgModel KeySwitchModel Digits KsLoops RotProofs ConjProofs MulProofs Instance PropsEnc PropsRotate PropsKeySwitch FloatModel CkksFloat CkksModel BfvModel PropsBfv BfvMulModel BfvConv BfvGadget BfvDig BfvKey BfvCross BfvMulProofs PropsBfvConv PropsBfvMul PropsBfvMulEx HeapModel HeapEval HeapBfv PropsHeapBfv BfvCircuit EncFresh PropsBfvCircuit PropsBfvCircuitEx BfvMsg BfvMsgSlots PropsBfvMsg.
From Coq Require Import Znumtheory.
Open Scope Z_scope.

Definition exm_ins : list (minput 8) :=
  [MIn 8 "alice" [3; -1; 4; 1; -5; 9; 2; -6] (rows_of (ppQ exc) ex_s) (exc_smp 1) (exc_smp 2); MIn 8 "bob" [2; 7; -1; 8; 2] (rows_of (ppQ exc) ex_s) (exc_smp 0) (exc_smp 3)].
(** 0 and 1 are the inputs *)
Definition exm_prog : list minstr := [MCall (BMul 0 1); MCall (BRot 2 (-1)); MCall (BConj 0); MCopy 3; MCall (BAdd 5 4); MCall (BSub 6 1)].
(** the products are 6 -7 -4 8 | -10 0 0 0, rotated 8 6 -7 -4 | 0 -10 0 0, plus -5 9 2 -6 | 3 -1 4 1, minus bob's values *)
Definition exm_out : list Z := [1; 8; -4; -1; 1; 6; 4; 1].

Lemma exm_hyps : okm (N := 8) (Mod (bT exc) 3) /\
  (forall x, In x exm_ins -> In (mi_id x) exc_names /\ minput_ok exc 3 1 x) /\ mvalid (length exm_ins) exm_prog /\ mrots exd_crs exm_prog [1; 2] /\
  2 * nth 7 (mnoise_run exc exd_crs 3 1 exm_prog (map (fun x => [mi_id x]) exm_ins) (map (fun _ => bfresh_noise 8 exc 3 1 (bT exc)) exm_ins)) 0 < qprod exc.
Proof.
  split; [|split; [|split; [|split]]].
  - split; [apply is_prime_ok; vm_compute; reflexivity|]. split; [reflexivity|]. split; [exists 3%nat; reflexivity|]. apply eqz_iff; [discriminate|]. vm_compute. reflexivity.
  - intros x [<-|[<-|[]]]; (split; [cbn; tauto|]); (split; [cbn; lia|]); (split; [repeat constructor; vm_compute; first [reflexivity|discriminate]|]); cbn [mi_su mi_s0 mi_s1].
    + exists ex_s, (ex_e 1), (ex_e 2). split; [exact exd_s|]. split; apply exc_e_sample.
    + exists ex_s, (ex_e 0), (ex_e 3). split; [exact exd_s|]. split; apply exc_e_sample.
  - cbn. intuition lia.
  - intros i k j H. cbn [exm_prog In] in H. destruct H as [H|[H|[H|[H|[H|[H|[]]]]]]]; try discriminate H. injection H as <- <-. change (-1 mod Z.of_nat (8 / 2)) with 3. intros q NZ U. apply exd_used. exact U.
  - vm_compute. reflexivity.
Qed.

Lemma centered_unique t a c : 2 * Z.abs a < t -> 2 * Z.abs c < t -> (t | a - c) -> a = c.
Proof. intros H1 H2 [k D]. assert (k = 0) by nia. lia. Qed.

Theorem C62_example : exists cs h c, mencrypt exc 3 exd_pk (fun _ => ex_ord 0%nat) exm_ins = Ok cs /\ mserver exc exd_crs exd_rs exd_rk exd_ck (fun _ _ => ex_ord) cs exm_prog = Ok h /\
  nth_error (bcontents h) 7 = Some c /\ bDecryptMsg exc 3 ex_ord c exd_sks = Ok exm_out.
Proof.
  destruct C47_nonvacuous as (H1 & H2 & H3 & H4 & H5 & H6 & H7 & H8 & H9 & _). destruct exm_hyps as (M1 & M2 & M3 & M4 & M5).
  destruct (C62_end_to_end 8 exc 3 3 1 exd_crs exd_rs exd_rk exd_ck exd_sks exd_pk (fun _ => ex_s) (fun _ => ex_s) exc_names [1; 2] (fun _ _ => ex_ord) (fun _ => ex_ord 0%nat) ex_ord exm_ins exm_prog H1 H2 M1 (fun _ _ => H3) (fun _ => H3 0%nat) H3 H4 H5 H6 H7 H8 H9 M2 M3 M4) as (cs & h & C1 & C2 & C3 & C4).
  destruct (nth_error (bcontents h) 7) as [c|] eqn:E; [|apply nth_error_None in E; rewrite C3 in E; change (length exm_ins + length exm_prog)%nat with 8%nat in E; lia].
  exists cs, h, c. split; [exact C1|]. split; [exact C2|]. split; [exact E|]. destruct (C4 7%nat c E) as (_ & C5). destruct (C5 M5) as (msg & D1 & D2 & D3). rewrite D1. f_equal.
  apply (nth_ext _ _ 0 0); [rewrite D2; reflexivity|]. intros j Hj. rewrite D2 in Hj. destruct (D3 j Hj) as [D4 D5]. apply (centered_unique 17); [exact D4| |].
  - do 8 (destruct j as [|j]; [vm_compute; reflexivity|]). lia.
  - destruct D5 as [q D5]. change (bT exc) with 17 in D5. assert (X : (17 | nth 7 (mplain_run 8 exm_prog (map mvec exm_ins)) zvec j - nth j exm_out 0)).
    { clear - Hj. do 8 (destruct j as [|j]; [apply Z.mod_divide; [discriminate|vm_compute; reflexivity]|]). lia. }
    replace (nth j msg 0 - nth j exm_out 0) with ((nth j msg 0 - nth 7 (mplain_run 8 exm_prog (map mvec exm_ins)) zvec j) + (nth 7 (mplain_run 8 exm_prog (map mvec exm_ins)) zvec j - nth j exm_out 0)) by ring.
    apply Z.divide_add_r; [exists q; exact D5|exact X].
Qed.

(** too many values: EncryptMsgNew panics *)
Theorem C62_too_long : forall N b root o vals (pk : publicKey N) su s0 s1, (N < length vals)%nat -> bEncryptMsgNew b root o vals pk su s0 s1 = Panic.
Proof. intros N b root o vals pk su s0 s1 H. unfold bEncryptMsgNew. rewrite encode_panic by exact H. reflexivity. Qed.
