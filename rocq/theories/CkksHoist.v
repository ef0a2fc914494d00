(** Client programs over the mkckks evaluator that also hoist: HoistedForm, MulRelinHoistedNew, RotateHoistedNew and CopyNew besides the calls of CkksCircuit.v.
    Specification side: [xerase], the same program without hoisting. *)
From Flocq Require Import Core BinarySingleNaN.
From Verif Require Import Base IdSetModel KeySetModel NumTheory Negacyclic Ntt Word BasisExt Rows RlweModel KeyGenModel CtModel KeySwitchModel FloatModel CkksFloat CkksModel CkksCircuit.
Open Scope Z_scope.

(** XForm i: hoist register i into a new hoisting register; XMul, XRot: operands with the numbers of their hoisting registers; XCopy: Ciphertext.CopyNew *)
Inductive xinstr := XK (i : kinstr) | XForm (i : nat) | XMul (i j hi hj : nat) | XRot (i : nat) (k : Z) (hi : nat) | XCopy (i : nat).

Section Model.
  Context {N : nat} (pp : rparams) (pscale : f64) (crs : crsT N) (rs : rlkset N) (rk : rotset N) (ck : conjset N).
  Notation ct := (ckct N).
  Variable pts : list (poly N * f64).
  Definition xstate : Type := evalst N * list ct * list (hoisted N).

  (** HoistedForm, MulRelinHoistedNew, RotateHoistedNew: mkckks/evaluator.go:543, 558, 585; CopyNew: mkckks/elements.go:28-33 *)
  Definition xcall (o : nat -> order) (s : xstate) (i : xinstr) : res xstate :=
    let '(st, regs, hs) := s in
    match i with
    | XK i => '(st, c) <- kcall pp pscale crs rs rk ck pts o st regs i ;; Ok (st, regs ++ [c], hs)
    | XForm i => x <- idx regs i ;; h <- HoistedForm pp (o 0%nat) x ;; Ok (st, regs, hs ++ [h])
    | XMul i j a b => x <- idx regs i ;; y <- idx regs j ;; ha <- idx hs a ;; hb <- idx hs b ;;
        c <- MulRelinHoistedNew pp (o 0%nat) crs pscale x y (Some ha) (Some hb) rs ;; Ok (st, regs ++ [c], hs)
    | XRot i k a => x <- idx regs i ;; ha <- idx hs a ;; c <- RotateHoistedNew pp o crs x k ha rk ;; Ok (st, regs ++ [c], hs)
    | XCopy i => x <- idx regs i ;; c <- ckCopyNew (o 0%nat 0%nat) x ;; Ok (st, regs ++ [c], hs)
    end.
  Fixpoint xrun (w : nat -> nat -> order) (n : nat) (prog : list xinstr) (s : xstate) : res xstate :=
    match prog with nil => Ok s | i :: prog => s <- xcall (w n) s i ;; xrun w (S n) prog s end.
End Model.

(** *** the same program without hoisting *)
Definition xerase1 (i : xinstr) : list kinstr :=
  match i with XK i => [i] | XForm _ => [] | XMul i j _ _ => [KMul i j] | XRot i k _ => [KRot i k] | XCopy i => [KDrop i 0] end.
Definition xerase (prog : list xinstr) : list kinstr := flat_map xerase1 prog.
(** the hoisting registers are those of the operands (src: which register each one was made from; n: number of registers), and the amounts of hoisted rotations
    are in the common reference string (RotateHoistedNew panics otherwise, C23) *)
Fixpoint xwell {N} (crs : crsT N) (n : nat) (src : list nat) (prog : list xinstr) : Prop :=
  match prog with
  | nil => True
  | XForm i :: prog => (i < n)%nat /\ xwell crs n (src ++ [i]) prog
  | XMul i j a b :: prog => nth_error src a = Some i /\ nth_error src b = Some j /\ xwell crs (S n) src prog
  | XRot i k a :: prog => nth_error src a = Some i /\ (let q := k mod Z.of_nat (N / 2) in q = 0 \/ mget Z.eq_dec crs q <> None) /\ xwell crs (S n) src prog
  | _ :: prog => xwell crs (S n) src prog
  end.
