(** Client programs over the mkbfv evaluator: straight-line sequences of the exported operations (mkbfv/evaluator.go), every result in a new register.
    Specification side: what the same program computes on plaintext polynomials, which parties a register depends on, and its noise bound. *)
From Verif Require Import Base IdSetModel KeySetModel NumTheory Negacyclic Ntt Word BasisExt Rows RlweModel KeyGenModel Galois CtModel KeySwitchModel SchemeSpec BasisSpec ExtProps Digits RotProofs PropsKeySwitch PropsRotate BfvModel BfvMulModel BfvMulProofs PropsBfvMul.
Open Scope Z_scope.

(** one call of the evaluator; operands are register numbers *)
Inductive binstr := BAdd (i j : nat) | BSub (i j : nat) | BMul (i j : nat) | BRot (i : nat) (k : Z) | BConj (i : nat).

Section Model.
  Context {N : nat} (b : bparams) (crs : crsT N) (rs : brlkset N) (rk : rotset N) (ck : conjset N).
  Notation R := (R N). Notation ct := (ctT N).

  (** AddNew, SubNew, MulRelinNew, RotateNew, ConjugateNew: mkbfv/evaluator.go:53, 60, 84, 154, 197 *)
  Definition bcall (o : nat -> order) (regs : list ct) (i : binstr) : res ct :=
    match i with
    | BAdd i j => x <- idx regs i ;; y <- idx regs j ;; bAddNew (ppQ b) (o 0%nat) x y
    | BSub i j => x <- idx regs i ;; y <- idx regs j ;; bSubNew (ppQ b) (o 0%nat) x y
    | BMul i j => x <- idx regs i ;; y <- idx regs j ;; bMulRelinNew b (o 0%nat) crs x y rs
    | BRot i k => x <- idx regs i ;; bRotateNew (ppQ b) o crs x k rk
    | BConj i => x <- idx regs i ;; bConjugateNew (ppQ b) (o 0%nat) crs x ck
    end.
  (** a client program; [w n] gives the iteration orders of the maps during call number n *)
  Fixpoint brun (w : nat -> nat -> order) (n : nat) (prog : list binstr) (regs : list ct) : res (list ct) :=
    match prog with
    | nil => Ok regs
    | i :: prog => c <- bcall (w n) regs i ;; brun w (S n) prog (regs ++ [c])
    end.

  (** *** what it stands for *)
  Definition bargs (i : binstr) : list nat := match i with BAdd i j | BSub i j | BMul i j => [i; j] | BRot i _ | BConj i => [i] end.
  (** every operand is an earlier register *)
  Fixpoint bvalid (n : nat) (prog : list binstr) : Prop :=
    match prog with nil => True | i :: prog => (forall a, In a (bargs i) -> (a < n)%nat) /\ bvalid (S n) prog end.

  Definition bplain (i : binstr) (ms : list R) : R :=
    match i with
    | BAdd i j => add (nth i ms R0) (nth j ms R0)
    | BSub i j => sub (nth i ms R0) (nth j ms R0)
    | BMul i j => mul (nth i ms R0) (nth j ms R0)
    | BRot i k => galois (5 ^ (k mod Z.of_nat (N / 2))) (nth i ms R0)
    | BConj i => galois (-1) (nth i ms R0)
    end.
  Definition bplain_run (prog : list binstr) (ms : list R) : list R := fold_left (fun ms i => ms ++ [bplain i ms]) prog ms.

  Definition bids (i : binstr) (ids : list (list string)) : list string := nodup string_dec (concat (map (fun a => nth a ids nil) (bargs i))).
  Definition bids_run (prog : list binstr) (ids : list (list string)) : list (list string) := fold_left (fun ids i => ids ++ [bids i ids]) prog ids.

  (** noise of one call: parties and noises of the operands; B and T bound key errors and secrets *)
  Definition bnoise (B T : Z) (i : binstr) (ids : list (list string)) (Vs : list Z) : Z :=
    let n a := length (nth a ids nil) in let V a := nth a Vs 0 in
    let sw := switch_noise N (ppQ b) (maxLevel (ppQ b)) (dig_bound (ppQ b) (maxLevel (ppQ b))) B T in
    match i with
    | BAdd i j | BSub i j => V i + V j
    | BMul i j => bfv_prod_noise N b (n i) (n j) B T (V i) (V j)
    | BRot i k => V i + bT b * (rot_count crs (k mod Z.of_nat (N / 2)) * (Z.of_nat (n i) * sw))
    | BConj i => V i + bT b * (Z.of_nat (n i) * sw)
    end.
  Fixpoint bnoise_run (B T : Z) (prog : list binstr) (ids : list (list string)) (Vs : list Z) : list Z :=
    match prog with
    | nil => Vs
    | i :: prog => bnoise_run B T prog (ids ++ [bids i ids]) (Vs ++ [bnoise B T i ids Vs])
    end.
End Model.
