(** IEEE-754 binary64 arithmetic as used by the Go code, with Flocq's BinarySingleNaN.
    Go's float64 operations are IEEE round-to-nearest-even; the expressions modelled here contain no
    product-plus-sum that the compiler could fuse. *)
From Verif Require Import Base.
From Flocq Require Import Core BinarySingleNaN.
Open Scope Z_scope.

Definition f64 := binary_float 53 1024.
Local Notation Hp := (eq_refl : Prec_gt_0 53).
Local Notation He := (eq_refl : Prec_lt_emax 53 1024).

(** float64(x) for an integer x *)
Definition f_of_int (z : Z) : f64 := binary_normalize 53 1024 Hp He mode_NE z 0 false.
(** x / y *)
Definition f_div (x y : f64) : f64 := Bdiv (prec_gt_0_ := Hp) (prec_lt_emax_ := He) mode_NE x y.
(** x + y *)
Definition f_add (x y : f64) : f64 := Bplus (prec_gt_0_ := Hp) (prec_lt_emax_ := He) mode_NE x y.
(** math.Ceil(x) *)
Definition f_ceil (x : f64) : f64 := Bnearbyint (prec_lt_emax_ := He) mode_UP x.
(** uint64(x), int(x): truncation (in range) *)
Definition f_trunc (x : f64) : Z := Btrunc x.

(** basis_extension.go:499-517 and 561-578: vi = 0; vi += float64(y[i]) / float64(q[i]); v = uint64(vi) *)
Definition f_quot (yq : list (Z * Z)) : Z :=
  f_trunc (fold_left (fun s yq => f_add s (f_div (f_of_int (fst yq)) (f_of_int (snd yq)))) yq (B754_zero false)).

(** params.go:37, 71-75 and basis_extension.go:382-383: int(math.Ceil(float64(a) / float64(b))) *)
Definition f_ceil_div (a b : Z) : Z := f_trunc (f_ceil (f_div (f_of_int a) (f_of_int b))).
