(** Model of the helpers of mkckks/utils.go: interfaceMod, scaleUpVecExact, scaleUpVecExactBigFloat, genBigIntChain,
    GenSwitchkeysRescalingParams (scaleUpExact is in CkksFloat.v).  StandardDeviation and scaleDown (plain float64 formulas) are not modelled. *)
From Flocq Require Import Core BinarySingleNaN.
From Coq Require Import Reals.
From Verif Require Import Base NumTheory Word BasisExt FloatModel CkksFloat.
Open Scope Z_scope.

(** the dynamic types interfaceMod distinguishes; words and int64 carry their value as an integer *)
Inductive ival := IUint64 (x : Z) | IInt64 (x : Z) | IBig (x : Z) | IOther.
(** mkckks/utils.go:30-57.  x%qi on uint64 panics for qi = 0; Go's % on int64 truncates (Z.rem); big.Int.Mod is Euclidean. *)
Definition interfaceMod (x : ival) (q : Z) : res Z :=
  match x with
  | IUint64 x => if q =? 0 then Panic else Ok (x mod q)
  | IInt64 x => if 0 <? x then Ok x else if x <? 0 then (if q =? 0 then Panic else Ok (w64 (q + Z.rem x q))) else Ok 0
  | IBig x => if x =? 0 then Ok 0 else if q =? 0 then Panic else Ok (x mod q)
  | IOther => Panic
  end.

(** uint64(x) for a float64: truncation; outside [0, 2^64) Go leaves the result to the implementation ([ud]) *)
Definition f_uint64 (ud : f64 -> Z) (x : f64) : Z :=
  if is_finite x then let t := f_trunc x in if (0 <=? t) && (t <? W) then t else ud x else ud x.
(** mkckks/utils.go:88-132: one coefficient for one modulus.  1.8446744073709552e+19 is the float64 2^64.
    Assumption: -n*v+0.5 is not fused into one rounding (the default on amd64). *)
Definition f_two64 : f64 := f_of_int (2 ^ 64).
Definition f_abs (x : f64) : f64 := Babs x.
Definition scaleUpVecOne (ud : f64 -> Z) (v n : f64) (q : Z) : res Z :=
  if f_gt (f_mul n (f_abs v)) f_two64 then
    let neg := f_lt v f_zero in
    let x := if neg then f_mul (f_neg n) v else f_mul n v in
    X <- (match x with B754_nan => Panic | B754_infinity _ => Ok 0 | _ => Ok (f_trunc (f_add x f_half)) end) ;;
    let t := X mod q in
    Ok (if neg then w64 (q - t) else t)
  else if f_lt v f_zero then Ok (w64 (q - f_uint64 ud (f_add (f_mul (f_neg n) v) f_half) mod q))
  else Ok (f_uint64 ud (f_add (f_mul n v) f_half) mod q).
(** mkckks/utils.go:88-142: coeffs has one row of length [len] per modulus (a shorter row is an index panic); the positions beyond the values are zeroed *)
Fixpoint rall {A B} (f : A -> res B) (l : list A) : res (list B) :=
  match l with nil => Ok nil | x :: l => y <- f x ;; ys <- rall f l ;; Ok (y :: ys) end.
Definition scaleUpVecExact (ud : f64 -> Z) (values : list f64) (n : f64) (moduli : list Z) (len : nat) : res (list (list Z)) :=
  if (len <? length values)%nat then Panic else
  rall (fun q => row <- rall (fun v => scaleUpVecOne ud v n q) values ;; Ok (row ++ repeat 0 (len - length values))) moduli.

(** big.Float of precision p: round to nearest even with unbounded exponents *)
Definition bf_round (p : Z) (x : Rdefinitions.R) : Rdefinitions.R := round radix2 (FLX_exp p) ZnearestE x.
(** mkckks/utils.go:144-182, one coefficient for one modulus: Mul and Add/Sub round to the precision of the values, Int truncates,
    big.Int.Mod is Euclidean *)
Definition scaleUpBig (p : Z) (v scale : Rdefinitions.R) (q : Z) : Z :=
  let x := bf_round p (scale * v)%R in
  let neg := Rlt_bool v 0 in
  let x := if neg then bf_round p (x - / 2)%R else bf_round p (x + / 2)%R in
  let t := Ztrunc x mod q in
  w64 (if neg then t + q else t).

(** mkckks/utils.go:193-202; Q[0] of an empty slice panics *)
Definition genBigIntChain (Q : list Z) : res (list Z) :=
  match Q with
  | nil => Panic
  | q0 :: Q' => Ok (fst (fold_left (fun acc q => let c := q * snd acc in (fst acc ++ [c], c)) Q' ([q0], q0)))
  end.
(** mkckks/utils.go:205-224 *)
Definition GenSwitchkeysRescalingParams (Q P : list Z) : list Z :=
  let PBig := fold_left Z.mul P 1 in
  map (fun q => mform (mod_exp (PBig mod q) (q - 2) q) q (bred_params q)) Q.
