(** Model of mkckks/evaluator.go with every scratch buffer as state: the KeySwitcher (KsPool.v), the evaluator's ctxtPool and polyQPool (CkksModel.v)
    and the decomposition buffers HoistPool of the relinearization key set (mkrlwe/keys.go:54-58, 165-187).
    CkksModel.v is the version whose KeySwitcher and HoistPool values are local. *)
From Flocq Require Import Core BinarySingleNaN.
From Verif Require Import Base IdSetModel KeySetModel NumTheory Negacyclic Ntt Word FloatModel CkksFloat BasisExt BasisExtProofs Rows RlweModel KeyGenModel Galois CtModel KeySwitchModel CkksModel KsPool.
Open Scope Z_scope.

Section Model.
  Context {N : nat}.
  Notation R := (R N).
  Notation ct := (ctT N).
  Notation kst := (kst N).
  Implicit Types (pp : rparams).

  (** evaluator.go:421-423, 432-438: Decompose writes the buffer of the identity; a missing buffer is a nil dereference *)
  Definition hoistIntoSt pp (o : list string -> list string) (st : kst) (hp : hoisted N) (c : ckct N) (ids : idset) : res (kst * hoisted N) :=
    level <- ctLevel (cv c) ;;
    rfold (fun '(st, hp) id =>
        p <- cgetL (cv c) id level ;;
        b <- hget hp id ;;
        '(st, d) <- DecSt pp level st p b ;;
        Ok (st, mset seq_dec hp id d)) (o (keys ids)) (st, hp).
  (** evaluator.go:558-581 *)
  Definition MulRelinHoistedNewSt pp (o : order) (crs : crsT N) (pscale : f64) (st : kst) (c0 c1 : ckct N) (h0 h1 : option (hoisted N)) (rs : rlkset N) : res (kst * ckct N) :=
    out <- newCiphertextBinary o c0 c1 ;;
    let out := CK (cv out) f_zero in
    l0 <- ctLevel (cv c0) ;;
    l1 <- ctLevel (cv c1) ;;
    lo <- ctLevel (cv out) ;;
    let level := Nat.min (Nat.min l0 l1) lo in
    out <- (if (level <? lo)%nat then DropLevel pp (o 40%nat) out (lo - level) else Ok out) ;;
    '(st, v) <- MulAndRelinHoistedSt pp o crs st (cv c0) (cv c1) h0 h1 rs (cv out) ;;
    '(out, _) <- Rescale pp (o 41%nat) (CK v (f_mul (csc c0) (csc c1))) pscale None ;;
    Ok (st, out).
  (** evaluator.go:416-443; in the square case both arguments are HoistPool[0] *)
  Definition MulRelinNewSt pp (o : order) (crs : crsT N) (pscale : f64) (st : kst) (hp0 hp1 : hoisted N) (c0 c1 : ckct N) (same : bool) (rs : rlkset N) : res (kst * hoisted N * hoisted N * ckct N) :=
    ids0 <- IDSetOf (o 60%nat) (cv c0) ;;
    if same then
      '(st, hp0) <- hoistIntoSt pp (o 61%nat) st hp0 c0 ids0 ;;
      '(st, c) <- MulRelinHoistedNewSt pp o crs pscale st c0 c1 (Some hp0) (Some hp0) rs ;;
      Ok (st, hp0, hp1, c)
    else
      ids1 <- IDSetOf (o 62%nat) (cv c1) ;;
      '(st, hp0) <- hoistIntoSt pp (o 61%nat) st hp0 c0 ids0 ;;
      '(st, hp1) <- hoistIntoSt pp (o 63%nat) st hp1 c1 ids1 ;;
      '(st, c) <- MulRelinHoistedNewSt pp o crs pscale st c0 c1 (Some hp0) (Some hp1) rs ;;
      Ok (st, hp0, hp1, c).
  (** evaluator.go:543-553: new buffers for every identity *)
  Definition HoistedFormSt pp (o : order) (st : kst) (c : ckct N) : res (kst * hoisted N) :=
    ids <- IDSetOf (o 50%nat) (cv c) ;;
    level <- ctLevel (cv c) ;;
    rfold (fun '(st, h) id => p <- cgetL (cv c) id level ;; '(st, d) <- DecSt pp level st p (newSwk pp) ;; Ok (st, mset seq_dec h id d)) (o 51%nat (keys ids)) (st, nil).

  (** evaluator.go:516-523 *)
  Fixpoint rotChainSt pp (o : nat -> order) (crs : crsT N) (fuel : nat) (k rotidx : Z) (rk : rotset N) (st : kst) (tmp out : ct) : res (kst * ct) :=
    match fuel with
    | O => if 0 <? rotidx then Panic else Ok (st, out)
    | S fuel =>
      if 0 <? rotidx then
        '(st, tmp, out) <- (if negb (rotidx mod 2 =? 0)
                        then '(st, out) <- RotateSt pp (o fuel) crs st None tmp k rk out ;;
                             tmp <- Copy (o fuel 9%nat) tmp out ;; Ok (st, tmp, out)
                        else Ok (st, tmp, out)) ;;
        rotChainSt pp o crs fuel (k * 2) (rotidx / 2) rk st tmp out
      else Ok (st, out)
    end.
  (** evaluator.go:493-525 *)
  Definition rotateSt pp (o : nat -> order) (crs : crsT N) (st : kst) (c : ct) (rotidx : Z) (rk : rotset N) (out : ct) : res (kst * ct) :=
    k <- rotNorm (N := N) rotidx ;;
    if k =? 0 then out <- Copy (o 0%nat 0%nat) out c ;; Ok (st, out) else
    match mget Z.eq_dec crs k with
    | Some _ => RotateSt pp (o 0%nat) crs st None c k rk out
    | None => tmp <- CopyNew (o 0%nat 0%nat) c ;; rotChainSt pp o crs (Z.to_nat k) 1 k rk st tmp out
    end.
  (** evaluator.go:485-489 *)
  Definition RotateNewSt pp (o : nat -> order) (crs : crsT N) (st : kst) (c : ckct N) (rotidx : Z) (rk : rotset N) : res (kst * ckct N) :=
    ids <- IDSetOf (o 0%nat 1%nat) (cv c) ;;
    level <- ctLevel (cv c) ;;
    '(st, v) <- rotateSt pp o crs st (cv c) rotidx rk (NewCiphertext (o 0%nat 2%nat) ids level) ;;
    Ok (st, CK v (csc c)).
  (** evaluator.go:585-617 *)
  Definition RotateHoistedNewSt pp (o : nat -> order) (crs : crsT N) (st : kst) (c : ckct N) (rotidx : Z) (h : hoisted N) (rk : rotset N) : res (kst * ckct N) :=
    ids <- IDSetOf (o 0%nat 1%nat) (cv c) ;;
    level <- ctLevel (cv c) ;;
    let out := NewCiphertext (o 0%nat 2%nat) ids level in
    '(st, v) <- (k <- rotNorm (N := N) rotidx ;;
                 if k =? 0 then out <- Copy (o 0%nat 0%nat) out (cv c) ;; Ok (st, out) else
                 match mget Z.eq_dec crs k with
                 | Some _ => RotateSt pp (o 0%nat) crs st (Some h) (cv c) k rk out
                 | None => Panic
                 end) ;;
    Ok (st, CK v (csc c)).
  (** evaluator.go:530-540 *)
  Definition ConjugateNewSt pp (o : order) (crs : crsT N) (st : kst) (c : ckct N) (ck : conjset N) : res (kst * ckct N) :=
    ids <- IDSetOf (o 60%nat) (cv c) ;;
    level <- ctLevel (cv c) ;;
    '(st, v) <- ConjugateSt pp o crs st (cv c) ck (NewCiphertext (o 61%nat) ids level) ;;
    Ok (st, CK v (csc c)).

  (** ** an Evaluator and a RelinearizationKeySet over their lifetime *)
  Record world := W { wks : kst; wev : evalst N; wrs : rlkset N; wh0 : hoisted N; wh1 : hoisted N }.
  (** evaluator.go:23-38 with keys.go:165-175 *)
  Definition newWorld pp : world := W (NewKeySwitcher pp) (NewEvaluator pp) nil nil nil.
  (** the exported operations; EMulHoisted and ERotHoisted call HoistedForm first *)
  Inductive evop :=
  | EAdd (c0 c1 : ckct N)
  | ESub (c0 c1 : ckct N)
  | EMulPtxt (c : ckct N) (pt : poly N) (ptScale : f64)
  | EMul (c0 c1 : ckct N) (same : bool)
  | EMulHoisted (c0 c1 : ckct N)
  | ERot (c : ckct N) (k : Z) (rk : rotset N)
  | ERotHoisted (c : ckct N) (k : Z) (rk : rotset N)
  | EConj (c : ckct N) (ck : conjset N)
  | EAddKey (id : string) (key : relinKey N)
  | EDelKey (id : string).
  (** one call: the new state and the ciphertext returned *)
  Definition call pp (crs : crsT N) (pscale : f64) (o : nat -> order) (w : world) (op : evop) : res (world * option (ckct N)) :=
    match op with
    | EAdd c0 c1 => '(ev, c) <- AddNew pp (o 0%nat) (wev w) c0 c1 ;; Ok (W (wks w) ev (wrs w) (wh0 w) (wh1 w), Some c)
    | ESub c0 c1 => '(ev, c) <- SubNew pp (o 0%nat) (wev w) c0 c1 ;; Ok (W (wks w) ev (wrs w) (wh0 w) (wh1 w), Some c)
    | EMulPtxt c pt s => '(ev, c) <- MulPtxtNew pp (o 0%nat) pscale (wev w) c pt s ;; Ok (W (wks w) ev (wrs w) (wh0 w) (wh1 w), Some c)
    | EMul c0 c1 same => '(ks, h0, h1, c) <- MulRelinNewSt pp (o 0%nat) crs pscale (wks w) (wh0 w) (wh1 w) c0 c1 same (wrs w) ;; Ok (W ks (wev w) (wrs w) h0 h1, Some c)
    | EMulHoisted c0 c1 =>
        '(ks, h0) <- HoistedFormSt pp (o 1%nat) (wks w) c0 ;;
        '(ks, h1) <- HoistedFormSt pp (o 2%nat) ks c1 ;;
        '(ks, c) <- MulRelinHoistedNewSt pp (o 0%nat) crs pscale ks c0 c1 (Some h0) (Some h1) (wrs w) ;; Ok (W ks (wev w) (wrs w) (wh0 w) (wh1 w), Some c)
    | ERot c k rk => '(ks, c) <- RotateNewSt pp o crs (wks w) c k rk ;; Ok (W ks (wev w) (wrs w) (wh0 w) (wh1 w), Some c)
    | ERotHoisted c k rk =>
        '(ks, h) <- HoistedFormSt pp (o 1%nat) (wks w) c ;;
        '(ks, c) <- RotateHoistedNewSt pp o crs ks c k h rk ;; Ok (W ks (wev w) (wrs w) (wh0 w) (wh1 w), Some c)
    | EConj c ck => '(ks, c) <- ConjugateNewSt pp (o 0%nat) crs (wks w) c ck ;; Ok (W ks (wev w) (wrs w) (wh0 w) (wh1 w), Some c)
    (* keys.go:178-182 *)
    | EAddKey id key => Ok (W (wks w) (wev w) (mset seq_dec (wrs w) id key) (mset seq_dec (wh0 w) id (newSwk pp)) (mset seq_dec (wh1 w) id (newSwk pp)), None)
    (* keys.go:185-187 *)
    | EDelKey id => Ok (W (wks w) (wev w) (mdel seq_dec (wrs w) id) (wh0 w) (wh1 w), None)
    end.
End Model.
Arguments world : clear implicits.
Arguments evop : clear implicits.
