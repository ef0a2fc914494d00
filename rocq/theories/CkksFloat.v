(** float64 and big.Float arithmetic used by mkckks/evaluator.go and mkckks/utils.go (Flocq binary64, round to nearest even). *)
From Verif Require Import Base NumTheory Word FloatModel.
From Flocq Require Import Core BinarySingleNaN.
Open Scope Z_scope.

Local Notation Hp := (eq_refl : Prec_gt_0 53).
Local Notation He := (eq_refl : Prec_lt_emax 53 1024).

Definition f_zero : f64 := B754_zero false.
Definition f_one : f64 := f_of_int 1.
Definition f_half : f64 := f_div f_one (f_of_int 2).
Definition f_mul (x y : f64) : f64 := Bmult (prec_gt_0_ := Hp) (prec_lt_emax_ := He) mode_NE x y.
Definition f_sub (x y : f64) : f64 := Bminus (prec_gt_0_ := Hp) (prec_lt_emax_ := He) mode_NE x y.
Definition f_neg (x : f64) : f64 := Bopp x.
(** math.Floor *)
Definition f_floor (x : f64) : f64 := Bnearbyint (prec_lt_emax_ := He) mode_DN x.
(** comparisons: false as soon as one side is NaN *)
Definition f_lt (x y : f64) : bool := match Bcompare x y with Some Lt => true | _ => false end.
Definition f_le (x y : f64) : bool := match Bcompare x y with Some Lt | Some Eq => true | _ => false end.
Definition f_eq (x y : f64) : bool := match Bcompare x y with Some Eq => true | _ => false end.
(** x > y, x >= y *)
Definition f_gt (x y : f64) : bool := f_lt y x.
Definition f_ge (x y : f64) : bool := f_le y x.
(** int64(x): truncation; out of range the result is implementation-defined in Go, here the amd64 value -2^63 *)
Definition f_int64 (x : f64) : Z :=
  if is_finite x then let t := f_trunc x in if (- 2 ^ 63 <=? t) && (t <? 2 ^ 63) then t else - 2 ^ 63 else - 2 ^ 63.
(** utils.MaxFloat64 (lattigo utils: if a >= b {return a}; return b) *)
Definition f_max (x y : f64) : f64 := if f_ge x y then x else y.

(** mkckks/utils.go:59-86.  big.NewFloat has 53 bits of precision, so the addition of 0.5 rounds as a float64 addition does;
    big.NewFloat(NaN) panics; the integer part of an infinity is left at 0. *)
Definition scaleUpExact (value n : f64) (q : Z) : res Z :=
  let isNegative := f_lt value f_zero in
  let x := if isNegative then f_mul (f_neg n) value else f_mul n value in
  X <- (match x with B754_nan => Panic | B754_infinity _ => Ok 0 | _ => Ok (f_trunc (f_add x f_half)) end) ;;
  let r := X mod q in
  Ok (if isNegative then w64 (q - r) else r).
