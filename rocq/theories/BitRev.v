(** Model of mkckks/utils.go:227-290 SliceBitReverseInPlaceFloat64 / Complex128 / RingComplex
    (three copies of the same loop, differing only in the element type). *)
From Verif Require Import Base.

Section Model.
  Context {A : Type}.

  (** utils.go:236-239 (and 259-262, 282-285): for j >= bit { j -= bit; bit >>= 1 }.
      [None]: the fuel ran out.  A Go [int] N >= 0; the loop only sees 0 <= j, bit < N. *)
  Fixpoint br_inner (fuel : nat) (j bit : nat) : option (nat * nat) :=
    match fuel with
    | O => None
    | S f => if bit <=? j then br_inner f (j - bit) (bit / 2) else Some (j, bit)
    end.

  (** slice[i], slice[j] = slice[j], slice[i]; an index beyond the slice panics *)
  Fixpoint lset (l : list A) (i : nat) (x : A) : list A :=
    match l, i with
    | nil, _ => nil
    | _ :: t, O => x :: t
    | y :: t, S i' => y :: lset t i' x
    end.
  Definition swap (l : list A) (i j : nat) : res (list A) :=
    match nth_error l i, nth_error l j with
    | Some x, Some y => Ok (lset (lset l i y) j x)
    | _, _ => Panic
    end.

  (** utils.go:231-248: the outer loop, from index [i], [n] iterations left *)
  Fixpoint br_outer (fuel N n i j : nat) (l : list A) : option (res (list A)) :=
    match n with
    | O => Some (Ok l)
    | S n' =>
        match br_inner fuel j (N / 2) with
        | None => None
        | Some (j1, bit) =>
            let j2 := j1 + bit in
            match (if i <? j2 then swap l i j2 else Ok l) with
            | Panic => Some Panic
            | Ok l' => br_outer fuel N n' (S i) j2 l'
            end
        end
    end.

  (** SliceBitReverseInPlace*(slice, N) *)
  Definition bit_reverse (fuel N : nat) (l : list A) : option (res (list A)) :=
    br_outer fuel N (N - 1) 1 0 l.
End Model.

(** Specification: r is the k-bit reversal of i. *)
Definition reversed_bits (k i r : nat) : Prop :=
  i < 2 ^ k /\ r < 2 ^ k /\ forall t, t < k -> Nat.testbit r t = Nat.testbit i (k - 1 - t).
