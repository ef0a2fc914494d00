(** Model of mkbfv/evaluator.go (addition, subtraction, rotation, conjugation) and mkbfv/decryptor.go.
    A BFV ciphertext is an mkrlwe ciphertext with all moduli (level MaxLevel) in the coefficient domain (elements.go:9-19).
    RingQ().Add, Sub and Neg (lattigo, not the Lvl forms) run over all moduli of the ring and index the rows of all their operands.
    Multiplication is in BfvMulModel.v. *)
From Verif Require Import Base IdSetModel KeySetModel NumTheory Negacyclic Ntt Word BasisExt Rows RlweModel KeyGenModel Galois CtModel KeySwitchModel FloatModel CkksFloat CkksModel.
Open Scope Z_scope.

Section Model.
  Context {N : nat}.
  Notation R := (R N).
  Notation ct := (ctT N).
  Implicit Types (pp : rparams).

  (** mkbfv/elements.go:11-13 *)
  Definition bNewCiphertext pp (o : list string -> list string) (ids : idset) : ct := NewCiphertext o ids (maxLevel pp).
  (** mkbfv/evaluator.go:25-28 *)
  Definition bNewBinary pp (o : order) (c0 c1 : ct) : res ct :=
    ids0 <- IDSetOf (o 20%nat) c0 ;;
    ids1 <- IDSetOf (o 21%nat) c1 ;;
    ids <- is_union o 22%nat ids0 ids1 ;;
    Ok (bNewCiphertext pp (o 24%nat) ids).
  (** a full-ring operation on the components of two ciphertexts, written to a third *)
  Definition bFull2 pp (ev : modulus -> R -> R -> R) (c0 c1 out : ct) id : res ct :=
    a <- cgetL c0 id (maxLevel pp) ;;
    b <- cgetL c1 id (maxLevel pp) ;;
    p <- cgetL out id (maxLevel pp) ;;
    Ok (cset out id (Pol (lvlQ2 pp (maxLevel pp) ev (prows a) (prows b)) (pntt p))).
  (** mkbfv/evaluator.go:31-45 *)
  Definition bEvaluateInPlace pp (o : order) (c0 c1 out : ct) (ev : modulus -> R -> R -> R) : res ct :=
    ids0 <- IDSetOf (o 0%nat) c0 ;;
    ids1 <- IDSetOf (o 1%nat) c1 ;;
    out <- bFull2 pp ev c0 c1 out id0 ;;
    idso <- IDSetOf (o 2%nat) out ;;
    rfold (fun v id =>
      if negb (is_has ids0 id) then p <- cget v id ;; q <- cget c1 id ;; Ok (cset v id (polyCopy p q))
      else if negb (is_has ids1 id) then p <- cget v id ;; q <- cget c0 id ;; Ok (cset v id (polyCopy p q))
      else bFull2 pp ev c0 c1 v id) (o 3%nat (keys idso)) out.
  (** mkbfv/evaluator.go:48-57 *)
  Definition bAddNew pp (o : order) (c0 c1 : ct) : res ct := out <- bNewBinary pp o c0 c1 ;; bEvaluateInPlace pp o c0 c1 out r_add.
  (** mkbfv/evaluator.go:60-79 *)
  Definition bSubNew pp (o : order) (c0 c1 : ct) : res ct :=
    out <- bNewBinary pp o c0 c1 ;;
    out <- bEvaluateInPlace pp o c0 c1 out r_sub ;;
    ids0 <- IDSetOf (o 30%nat) c0 ;;
    idso <- IDSetOf (o 31%nat) out ;;
    rfold (fun v id =>
      if negb (is_has ids0 id)
      then p <- cgetL v id (maxLevel pp) ;; Ok (cset v id (Pol (lvlQ1 pp (maxLevel pp) r_neg (prows p)) (pntt p)))
      else Ok v) (o 32%nat (keys idso)) out.

  (** mkbfv/evaluator.go:162-192.  The normalisation and the chain are the same code as in mkckks ([rotNorm], [rotChain]). *)
  Definition bRotate pp (o : nat -> order) (crs : crsT N) (c : ct) (rotidx : Z) (rk : rotset N) (out : ct) : res ct :=
    k <- rotNorm (N := N) rotidx ;;
    if k =? 0 then Copy (o 0%nat 0%nat) out c else
    tmp <- CopyNew (o 0%nat 0%nat) c ;;
    match mget Z.eq_dec crs k with
    | Some _ => Rotate pp (o 0%nat) crs tmp k rk out
    | None => rotChain pp o crs (Z.to_nat k) 1 k rk tmp out
    end.
  (** mkbfv/evaluator.go:154-158 *)
  Definition bRotateNew pp (o : nat -> order) (crs : crsT N) (c : ct) (rotidx : Z) (rk : rotset N) : res ct :=
    ids <- IDSetOf (o 0%nat 1%nat) c ;;
    bRotate pp o crs c rotidx rk (bNewCiphertext pp (o 0%nat 2%nat) ids).
  (** mkbfv/evaluator.go:197-208 *)
  Definition bConjugateNew pp (o : order) (crs : crsT N) (c : ct) (ck : conjset N) : res ct :=
    ids <- IDSetOf (o 60%nat) c ;;
    tmp <- CopyNew (o 62%nat) c ;;
    Conjugate pp o crs tmp ck (bNewCiphertext pp (o 61%nat) ids).

  (** mkbfv/decryptor.go:34-57 up to the decoding: the polynomial handed to DecodeInt.  The loop is that of mkrlwe ([decLoop]);
      the number of remaining components is not looked at. *)
  Definition bDecrypt pp (o : order) (c : ct) (sks : gomap string (secretKey N)) : res (poly N) :=
    ctTmp <- CopyNew (o 0%nat) c ;;
    ids <- IDSetOf (o 1%nat) ctTmp ;;
    ctTmp <- decLoop pp ids sks (o 2%nat (keys sks)) ctTmp ;;
    cget ctTmp id0.
End Model.
