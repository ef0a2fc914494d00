(** The mkbfv Evaluator on references: ring.Poly objects live on a heap, a ciphertext maps identities to references (compare HeapEval.v for mkckks).
    Same functions as in BfvModel.v and BfvMulModel.v, which work on values.  The lifted operands, digits, keys and the buffers of Evaluator and RelinearizationKeySet
    are values here (their reuse is the subject of C49 and C54); no ciphertext refers to them. *)
From Verif Require Import Base IdSetModel KeySetModel NumTheory Negacyclic Ntt Word BasisExt Rows RlweModel KeyGenModel Galois CtModel KeySwitchModel FloatModel CkksFloat CkksModel BfvModel BfvMulModel HeapModel HeapEval.
Open Scope Z_scope.

Section Model.
  Context {N : nat}.
  Notation R := (R N).
  Notation heap := (heap N).
  Notation ct := (ctT N).
  Implicit Types (pp : rparams) (h : heap).

  (** mkbfv/elements.go:11-13 *)
  Definition hbNew pp (o : list string -> list string) h (ids : idset) : heap * hct := hNew o h ids (maxLevel pp).
  (** mkbfv/evaluator.go:25-28 *)
  Definition hbNewBinary pp (o : order) h (c0 c1 : hct) : res (heap * hct) :=
    ids0 <- hIDSet (o 20%nat) c0 ;;
    ids1 <- hIDSet (o 21%nat) c1 ;;
    ids <- is_union o 22%nat ids0 ids1 ;;
    Ok (hbNew pp (o 24%nat) h ids).
  (** a full-ring operation on the components of two ciphertexts, written to a third *)
  Definition hbFull2 pp (ev : modulus -> R -> R -> R) h (c0 c1 out : hct) id : res heap :=
    a <- hgetL h c0 id (maxLevel pp) ;;
    b <- hgetL h c1 id (maxLevel pp) ;;
    p <- hgetL h out id (maxLevel pp) ;;
    hwrite h out id (Pol (lvlQ2 pp (maxLevel pp) ev (prows a) (prows b)) (pntt p)).
  (** mkbfv/evaluator.go:31-45 *)
  Definition hbEvaluateInPlace pp (o : order) h (c0 c1 out : hct) (ev : modulus -> R -> R -> R) : res heap :=
    ids0 <- hIDSet (o 0%nat) c0 ;;
    ids1 <- hIDSet (o 1%nat) c1 ;;
    h <- hbFull2 pp ev h c0 c1 out id0 ;;
    idso <- hIDSet (o 2%nat) out ;;
    rfold (fun h id =>
      if negb (is_has ids0 id) then p <- hread h out id ;; q <- hread h c1 id ;; hwrite h out id (polyCopy p q)
      else if negb (is_has ids1 id) then p <- hread h out id ;; q <- hread h c0 id ;; hwrite h out id (polyCopy p q)
      else hbFull2 pp ev h c0 c1 out id) (o 3%nat (keys idso)) h.
  (** mkbfv/evaluator.go:48-57 *)
  Definition hbAddNew pp (o : order) h (c0 c1 : hct) : res (heap * hct) :=
    '(h, out) <- hbNewBinary pp o h c0 c1 ;; h <- hbEvaluateInPlace pp o h c0 c1 out r_add ;; Ok (h, out).
  (** mkbfv/evaluator.go:60-79 *)
  Definition hbSubNew pp (o : order) h (c0 c1 : hct) : res (heap * hct) :=
    '(h, out) <- hbNewBinary pp o h c0 c1 ;;
    h <- hbEvaluateInPlace pp o h c0 c1 out r_sub ;;
    ids0 <- hIDSet (o 30%nat) c0 ;;
    idso <- hIDSet (o 31%nat) out ;;
    h <- rfold (fun h id =>
      if negb (is_has ids0 id)
      then p <- hgetL h out id (maxLevel pp) ;; hwrite h out id (Pol (lvlQ1 pp (maxLevel pp) r_neg (prows p)) (pntt p))
      else Ok h) (o 32%nat (keys idso)) h ;;
    Ok (h, out).

  (** mkbfv/evaluator.go:162-192: the operand is copied before the key switch *)
  Definition hbRotate pp (o : nat -> order) (crs : crsT N) h (c : hct) (rotidx : Z) (rk : rotset N) (out : hct) : res heap :=
    k <- rotNorm (N := N) rotidx ;;
    if k =? 0 then hCopy (o 0%nat 0%nat) h out c else
    '(h, tmp) <- hCopyNew (o 0%nat 0%nat) h c ;;
    match mget Z.eq_dec crs k with
    | Some _ => hRotateGen pp (o 0%nat) crs None h tmp k rk out
    | None => hrotChain pp o crs (Z.to_nat k) 1 k rk h tmp out
    end.
  (** mkbfv/evaluator.go:154-158 *)
  Definition hbRotateNew pp (o : nat -> order) (crs : crsT N) h (c : hct) (rotidx : Z) (rk : rotset N) : res (heap * hct) :=
    ids <- hIDSet (o 0%nat 1%nat) c ;;
    let '(h, out) := hbNew pp (o 0%nat 2%nat) h ids in
    h <- hbRotate pp o crs h c rotidx rk out ;;
    Ok (h, out).
  (** mkbfv/evaluator.go:197-208 *)
  Definition hbConjugateNew pp (o : order) (crs : crsT N) h (c : hct) (ck : conjset N) : res (heap * hct) :=
    ids <- hIDSet (o 60%nat) c ;;
    let '(h, out) := hbNew pp (o 61%nat) h ids in
    '(h, tmp) <- hCopyNew (o 62%nat) h c ;;
    h <- hConjugate pp o crs h tmp ck out ;;
    Ok (h, out).

  (** keyswitch_hoisted.go:136-173 *)
  Definition hbProdStage b (o : order) h (op0 op1 : ct) (ids0 ids1 : idset) (out : hct) : res heap :=
    let pp := ppR b in let L := levelR b in
    a0 <- cgetL op0 id0 L ;;
    b0 <- cgetL op1 id0 L ;;
    let aN := lvlQ1 pp L r_mform (lvlQ1 pp L ntt (prows a0)) in
    let bN := lvlQ1 pp L ntt (prows b0) in
    z <- Quantize b (lvlQ2 pp L r_mont aN bN) ;;
    h <- hwr h out id0 z ;;
    let bM := lvlQ1 pp L r_mform bN in
    h <- rfold (fun h id => if is_has ids1 id then Ok h else
             p <- cgetL op0 id L ;; z <- Quantize b (lvlQ2 pp L r_mont bM (lvlQ1 pp L ntt (prows p))) ;; hwr h out id z) (o 4%nat (keys ids0)) h ;;
    h <- rfold (fun h id => if is_has ids0 id then Ok h else
             p <- cgetL op1 id L ;; z <- Quantize b (lvlQ2 pp L r_mont aN (lvlQ1 pp L ntt (prows p))) ;; hwr h out id z) (o 5%nat (keys ids1)) h ;;
    rfold (fun h id => if is_has ids0 id then
             p <- cgetL op1 id L ;;
             let t := lvlQ2 pp L r_mont aN (lvlQ1 pp L ntt (prows p)) in
             q <- cgetL op0 id L ;;
             z <- Quantize b (lvlQ3 pp L r_mont_add bM (lvlQ1 pp L ntt (prows q)) t) ;;
             hwr h out id z
           else Ok h) (o 6%nat (keys ids1)) h.
  (** keyswitch_hoisted.go:175-183 *)
  Definition hbxStage b level (o : order) h (h1 : option (bhoisted N)) (op1 : ct) (ids1 : idset) (x1 x2 : swk N) (out : hct) : res heap :=
    rfold (fun h id => e <- bExtOp b level h1 op1 id x1 x2 ;; q <- hread h out id ;; hwr h out id (lvlQ2 (ppQ b) level r_add (prows q) e)) (o 7%nat (keys ids1)) h.
  (** keyswitch_hoisted.go:188-206 *)
  Definition hbvStage b level (o : order) (crs : crsT N) (rs : brlkset N) h (h0 : option (bhoisted N)) (op0 : ct) (ids0 : idset) (y1 y2 : swk N) (out : hct) : res heap :=
    u <- crs_get crs (-1) ;;
    rfold (fun h id =>
       k <- brlk_get rs id ;;
       w <- bExtOp b level h0 op0 id y1 y2 ;;
       dw <- Decompose (ppQ b) level (Pol w false) ;;
       ev <- ExternalProductHoisted (ppQ b) level dw (br_v k) ;;
       q0 <- hread h out id0 ;;
       h <- hwr h out id0 (lvlQ2 (ppQ b) level r_add (prows q0) ev) ;;
       eu <- ExternalProductHoisted (ppQ b) level dw u ;;
       q <- hread h out id ;;
       hwr h out id (lvlQ2 (ppQ b) level r_add (prows q) eu)) (o 8%nat (keys ids0)) h.
  (** keyswitch_hoisted.go:39-207 *)
  Definition hbMulAndRelin b (o : order) (crs : crsT N) h (op0 op1 : ct) (h0 h1 : option (bhoisted N)) (rs : brlkset N) (out : hct) : res heap :=
    level <- hLevel h out ;;
    l0 <- ctLevel op0 ;;
    if (l0 <? level)%nat then Panic else
    ids0 <- IDSetOf (o 0%nat) op0 ;;
    ids1 <- IDSetOf (o 1%nat) op1 ;;
    '(x1, x2) <- bGenVec b level br_d1 br_d2 h0 op0 rs (o 2%nat (keys ids0)) ;;
    '(y1, y2) <- bGenVec b level br_b1 br_b2 h1 op1 rs (o 3%nat (keys ids1)) ;;
    h <- hbProdStage b o h op0 op1 ids0 ids1 out ;;
    h <- hbxStage b level o h h1 op1 ids1 x1 x2 out ;;
    hbvStage b level o crs rs h h0 op0 ids0 y1 y2 out.
  (** evaluator.go:101-109, 125-133: reads the operand, writes the buffers of the key set *)
  Definition hbLift (conv : list R -> res (list R)) (l : list string) h (c : hct) : res ct :=
    rfold (fun acc id => p <- hread h c id ;; r <- conv (prows p) ;; Ok (cset acc id (Pol r false))) l nil.
  (** evaluator.go:118-150 *)
  Definition hbMulRelinHoisted b (o : order) (crs : crsT N) h (c0 c1 : hct) (rs : brlkset N) (out : hct) : res heap :=
    c0R <- hbLift (ModUpQtoR b) (o 40%nat (keys c0)) h c0 ;;
    c1R <- hbLift (BfvMulModel.Rescale b) (o 41%nat (keys c1)) h c1 ;;
    ids0 <- hIDSet (o 42%nat) c0 ;;
    ids1 <- hIDSet (o 43%nat) c1 ;;
    l0 <- hLevel h c0 ;;
    h0 <- hoistCt b l0 (o 44%nat (keys ids0)) c0R ;;
    l1 <- hLevel h c1 ;;
    h1 <- hoistCt b l1 (o 45%nat (keys ids1)) c1R ;;
    hbMulAndRelin b o crs h c0R c1R (Some h0) (Some h1) rs out.
  (** evaluator.go:84-88 *)
  Definition hbMulRelinNew b (o : order) (crs : crsT N) h (c0 c1 : hct) (rs : brlkset N) : res (heap * hct) :=
    '(h, out) <- hbNewBinary (ppQ b) o h c0 c1 ;;
    h <- hbMulRelinHoisted b o crs h c0 c1 rs out ;;
    Ok (h, out).

  (** ** a program that holds ciphertexts and calls the Evaluator *)
  Record hbworld := HBW { bwh : heap; bwcts : list hct }.
  Inductive hbop :=
  | BPut (c : ct)                           (* a new ciphertext with these contents, as an Encryptor returns it *)
  | BCopy (a : nat)                         (* a.CopyNew() *)
  | BAdd (a b : nat) | BSub (a b : nat)     (* AddNew, SubNew *)
  | BMul (a b : nat)                        (* MulRelinNew *)
  | BRot (a : nat) (k : Z) | BConj (a : nat).   (* RotateNew, ConjugateNew *)
  Record hbenv := HBE { hb_crs : crsT N; hb_rlk : brlkset N; hb_rot : rotset N; hb_cj : conjset N }.
  Definition hbcall b (e : hbenv) (o : nat -> order) (w : hbworld) (i : hbop) : res hbworld :=
    let cts := bwcts w in let h := bwh w in
    let ret := fun '(h, out) => Ok (HBW h (cts ++ [out])) in
    match i with
    | BPut c => ret (hput h c)
    | BCopy x => x <- idx cts x ;; r <- hCopyNew (o 0%nat 0%nat) h x ;; ret r
    | BAdd x y => x <- idx cts x ;; y <- idx cts y ;; r <- hbAddNew (ppQ b) (o 0%nat) h x y ;; ret r
    | BSub x y => x <- idx cts x ;; y <- idx cts y ;; r <- hbSubNew (ppQ b) (o 0%nat) h x y ;; ret r
    | BMul x y => x <- idx cts x ;; y <- idx cts y ;; r <- hbMulRelinNew b (o 0%nat) (hb_crs e) h x y (hb_rlk e) ;; ret r
    | BRot x k => x <- idx cts x ;; r <- hbRotateNew (ppQ b) o (hb_crs e) h x k (hb_rot e) ;; ret r
    | BConj x => x <- idx cts x ;; r <- hbConjugateNew (ppQ b) (o 0%nat) (hb_crs e) h x (hb_cj e) ;; ret r
    end.
  Fixpoint hbrun b (e : hbenv) (o : nat -> nat -> order) (n : nat) (prog : list hbop) (w : hbworld) : res hbworld :=
    match prog with nil => Ok w | i :: prog => w <- hbcall b e (o n) w i ;; hbrun b e o (S n) prog w end.
  (** the same program on values *)
  Definition vbcall b (e : hbenv) (o : nat -> order) (cts : list ct) (i : hbop) : res (list ct) :=
    let ret out := Ok (cts ++ [out]) in
    match i with
    | BPut c => ret c
    | BCopy x => x <- idx cts x ;; r <- CopyNew (o 0%nat 0%nat) x ;; ret r
    | BAdd x y => x <- idx cts x ;; y <- idx cts y ;; r <- bAddNew (ppQ b) (o 0%nat) x y ;; ret r
    | BSub x y => x <- idx cts x ;; y <- idx cts y ;; r <- bSubNew (ppQ b) (o 0%nat) x y ;; ret r
    | BMul x y => x <- idx cts x ;; y <- idx cts y ;; r <- bMulRelinNew b (o 0%nat) (hb_crs e) x y (hb_rlk e) ;; ret r
    | BRot x k => x <- idx cts x ;; r <- bRotateNew (ppQ b) o (hb_crs e) x k (hb_rot e) ;; ret r
    | BConj x => x <- idx cts x ;; r <- bConjugateNew (ppQ b) (o 0%nat) (hb_crs e) x (hb_cj e) ;; ret r
    end.
  Fixpoint vbrun b (e : hbenv) (o : nat -> nat -> order) (n : nat) (prog : list hbop) (cts : list ct) : res (list ct) :=
    match prog with nil => Ok cts | i :: prog => cts <- vbcall b e (o n) cts i ;; vbrun b e o (S n) prog cts end.
  Definition bcontents (w : hbworld) : list ct := map (view (bwh w)) (bwcts w).
End Model.
Arguments hbop : clear implicits.
Arguments hbworld : clear implicits.
Arguments hbenv : clear implicits.
