(** Model of cnn/cnn.go: the homomorphic convolution and the two fully connected layers, as programs over the mkckks evaluator (CkksModel.v).
    The evaluator's scratch state [st] is threaded through; [w] gives the iteration orders of the maps at every step. *)
From Flocq Require Import Core BinarySingleNaN.
From Verif Require Import Base IdSetModel KeySetModel NumTheory Negacyclic Ntt Word BasisExt Rows RlweModel KeyGenModel CtModel KeySwitchModel FloatModel CkksFloat CkksModel.
Open Scope Z_scope.

(** Go slice indexing *)
Definition idx {A} (l : list A) (i : nat) : res A := match nth_error l i with Some x => Ok x | None => Panic end.

Section Model.
  Context {N : nat} (pp : rparams) (crs : crsT N) (pscale : f64) (rs : rlkset N) (rk : rotset N) (w : nat -> nat -> order).
  Notation ckct := (ckct N). Notation evalst := (evalst N). Notation hoisted := (hoisted N).

  (** temp = eval.RotateNew(c, k, rtkSet); c = eval.AddNew(c, temp): cnn.go:33-34, 36-37, 65-66, 83-84, 91-92 *)
  Definition rotAdd (n : nat) (st : evalst) (c : ckct) (k : Z) : res (evalst * ckct) :=
    temp <- RotateNew pp (w n) crs c k rk ;;
    AddNew pp (w n 5%nat) st c temp.
  (** the loops cnn.go:63-67, 81-85, 89-93: for i := 0; i < logn; i++ with rotation step * (1 << i) *)
  Fixpoint rotAddLoop (cnt : nat) (step : Z) (n : nat) (st : evalst) (c : ckct) : res (evalst * ckct) :=
    match cnt with
    | O => Ok (st, c)
    | S cnt => '(st, c) <- rotAdd n st c step ;; rotAddLoop cnt (2 * step) (S n) st c
    end.

  (** cnn.go:18-21, 23-26, 28-31 with k = 1, 14, 15 and kernel 1, 2, 3 *)
  Definition convTerm (n : nat) (st : evalst) (img : ckct) (himg : hoisted) (ker : list ckct) (hker : list hoisted) (k : Z) (i : nat) (convOut : ckct) : res (evalst * ckct) :=
    temp <- RotateHoistedNew pp (w n) crs img k himg rk ;;
    tempHoisted <- HoistedForm pp (w n 6%nat) temp ;;
    ki <- idx ker i ;; hi <- idx hker i ;;
    temp <- MulRelinHoistedNew pp (w n 7%nat) crs pscale temp ki (Some tempHoisted) (Some hi) rs ;;
    AddNew pp (w n 5%nat) st convOut temp.
  (** cnn.go:10-40 *)
  Definition Convolution (st : evalst) (img : ckct) (himg : hoisted) (ker : list ckct) (hker : list hoisted) : res (evalst * ckct) :=
    k0 <- idx ker 0 ;; h0 <- idx hker 0 ;;
    convOut <- MulRelinHoistedNew pp (w 0%nat 7%nat) crs pscale img k0 (Some himg) (Some h0) rs ;;
    '(st, convOut) <- convTerm 1 st img himg ker hker 1 1 convOut ;;
    '(st, convOut) <- convTerm 2 st img himg ker hker 14 2 convOut ;;
    '(st, convOut) <- convTerm 3 st img himg ker hker 15 3 convOut ;;
    '(st, convOut) <- rotAdd 4 st convOut 2048 ;;
    rotAdd 5 st convOut 1024.

  (** one round of cnn.go:51-55 (the copy of line 51 is dead) *)
  Definition fc1Term (i : nat) (vec : ckct) (hvec : hoisted) (mat : ckct) (hmat : list hoisted) : res ckct :=
    _ <- ckCopyNew (w i 8%nat 0%nat) vec ;;
    temp <- RotateHoistedNew pp (w i) crs vec (Z.of_nat i * 128) hvec rk ;;
    tempHoisted <- HoistedForm pp (w i 6%nat) temp ;;
    hi <- idx hmat i ;;
    MulRelinHoistedNew pp (w i 7%nat) crs pscale temp mat (Some tempHoisted) (Some hi) rs.
  (** the loop cnn.go:50-61 from round i on; [acc] is fc1Out (nil before round 0) *)
  Fixpoint fc1Loop (i : nat) (st : evalst) (vec : ckct) (hvec : hoisted) (mats : list ckct) (hmat : list hoisted) (acc : option ckct) : res (evalst * option ckct) :=
    match mats with
    | nil => Ok (st, acc)
    | mat :: mats =>
      temp <- fc1Term i vec hvec mat hmat ;;
      match acc with
      | None => c <- ckCopyNew (w i 9%nat 0%nat) temp ;; fc1Loop (S i) st vec hvec mats hmat (Some c)
      | Some c => '(st, c) <- AddNew pp (w i 5%nat) st c temp ;; fc1Loop (S i) st vec hvec mats hmat (Some c)
      end
    end.
  (** cnn.go:42-71; with no matrix fc1Out is nil and line 65 dereferences it; logn = log2 128 = 7 (math.Log2 is exact on powers of two) *)
  Definition FC1Layer (st : evalst) (vec : ckct) (hvec : hoisted) (mats : list ckct) (hmat : list hoisted) (bias : ckct) : res (evalst * ckct) :=
    '(st, acc) <- fc1Loop 0 st vec hvec mats hmat None ;;
    match acc with
    | None => Panic
    | Some c =>
      let n := length mats in
      '(st, c) <- rotAddLoop 7 1 n st c ;;
      AddNew pp (w (n + 7)%nat 5%nat) st c bias
    end.
  (** cnn.go:73-97; logn = log2 16 = 4 and log2 64 = 6; the operands of MulRelinNew are different objects *)
  Definition FC2Layer (st : evalst) (vec mat bias : ckct) (mask : poly N) (maskScale : f64) : res (evalst * ckct) :=
    '(st, c) <- MulPtxtNew pp (w 0%nat 5%nat) pscale st vec mask maskScale ;;
    '(st, c) <- rotAddLoop 4 (-1) 1 st c ;;
    c <- MulRelinNew pp (w 5%nat 7%nat) crs pscale c mat false rs ;;
    '(st, c) <- rotAddLoop 6 128 6 st c ;;
    AddNew pp (w 12%nat 5%nat) st c bias.
End Model.
