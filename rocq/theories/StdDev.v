(** mkckks/utils.go: StandardDeviation and scaleDown, in IEEE binary64. *)
From Coq Require Import ZArith List.
From Flocq Require Import Core BinarySingleNaN.
From Verif Require Import FloatModel CkksFloat.
Import ListNotations.

Local Notation Hp := (eq_refl : Prec_gt_0 53).
Local Notation He := (eq_refl : Prec_lt_emax 53 1024).

(** math.Sqrt: correctly rounded, as IEEE 754 and Go's documentation of package math require. *)
Definition f_sqrt (x : f64) : f64 := Bsqrt (prec_gt_0_ := Hp) (prec_lt_emax_ := He) mode_NE x.

(** mkckks/utils.go 16-18: [for _, c := range vec { mean += c }], from mean = 0. *)
Definition sdSum (vec : list f64) : f64 := fold_left (fun mean c => f_add mean c) vec f_zero.

(** mkckks/utils.go 22-25: [tmp = c - mean; err += tmp * tmp], from err = 0.  Each operation is rounded
    on its own (Go may fuse the product and the sum on some machines; on amd64 it does not). *)
Definition sdErr (mean : f64) (vec : list f64) : f64 :=
  fold_left (fun err c => let tmp := f_sub c mean in f_add err (f_mul tmp tmp)) vec f_zero.

(** mkckks/utils.go 10-28: StandardDeviation. *)
Definition StandardDeviation (vec : list f64) (scale : f64) : f64 :=
  let n := f_of_int (Z.of_nat (length vec)) in
  let mean := f_div (sdSum vec) n in
  let err := sdErr mean vec in
  f_mul (f_sqrt (f_div err n)) scale.

(** mkckks/utils.go 185-191: scaleDown: [x, _ = new(big.Float).SetInt(coeff).Float64(); x /= n].
    SetInt is exact (the precision grows with the integer) and Float64 rounds to nearest even, to an
    infinity when the integer is too large. *)
Definition scaleDown (coeff : Z) (n : f64) : f64 := f_div (f_of_int coeff) n.
