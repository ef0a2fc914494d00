(** The mkckks Evaluator on references: ring.Poly objects live on a heap, a ciphertext maps identities to references, every operation reads and writes through
    references as the Go code does.  Same functions as in CkksModel.v, CtModel.v and KeySwitchModel.v, which work on values; HeapEvalProofs.v compares the two.
    The scratch ciphertext ctxtPool of the Evaluator lives on the same heap.  The scratch polynomials of the KeySwitcher, the digits (HoistedCiphertext) and the keys
    are values here: they are objects of other types that no ciphertext refers to.
    Simplifications: as in CkksModel.v (loops over moduli are run per component); two Go variables of type *mkckks.Ciphertext are one ciphertext exactly when they are one index. *)
From Verif Require Import Base IdSetModel KeySetModel NumTheory Negacyclic Ntt Word BasisExt Rows RlweModel KeyGenModel Galois CtModel KeySwitchModel FloatModel CkksFloat CkksModel HeapModel.
Open Scope Z_scope.

Section Model.
  Context {N : nat}.
  Notation R := (R N).
  Notation heap := (heap N).
  Implicit Types (pp : rparams) (h : heap).

  (** mkckks/elements.go:5-8: the components and the scale *)
  Record hck := HC { hv : hct; hsc : f64 }.
  Definition hLevel h (c : hct) : res nat := p <- hread h c id0 ;; Ok (plevel p).
  Definition hIDSet (o : list string -> list string) (c : hct) : res idset := rfold (fun s id => if string_dec id id0 then Ok s else is_add s id) (o (keys c)) is_new.
  Definition hgetL h (c : hct) id level : res (poly N) := p <- hread h c id ;; if (length (prows p) <=? level)%nat then Panic else Ok p.
  (** a Lvl operation writing the polynomial behind ct.Value[id] *)
  Definition hwr h (c : hct) id (rows : list R) : res heap := p <- hread h c id ;; hwrite h c id (Pol rows (pntt p)).

  (** mkrlwe/elements.go:22-33: one new object per component *)
  Definition hNew (o : list string -> list string) h (ids : idset) (level : nat) : heap * hct :=
    fold_left (fun '(h, c) id => (h ++ [zeroP (S level)], mset seq_dec c id (length h))) (o (keys ids)) (h ++ [zeroP (S level)], [(id0, length h)]).
  (** mkrlwe/elements.go:90-105: one new object per added identity *)
  Definition hPad (o : order) h (c : hct) (ids : idset) : res (heap * hct) :=
    p0 <- hread h c id0 ;;
    old <- hIDSet (o 0%nat) c ;;
    Ok (fold_left (fun '(h, c) id => if is_has old id then (h, c) else (h ++ [Pol (tab (S (plevel p0)) (fun _ => R0)) (pntt p0)], mset seq_dec c id (length h))) (o 1%nat (keys ids)) (h, c)).

  (** mkckks/evaluator.go:106-112 *)
  Definition hDropLevel pp (o : list string -> list string) h (c : hct) (levels : nat) : res heap :=
    level <- hLevel h c ;;
    if (S level <? levels)%nat then Panic else
    rfold (fun h id => p <- hread h c id ;; p <- cutRows pp (S level - levels) p ;; hwrite h c id p) (o (keys c)) h.
  (** mkckks/evaluator.go:98-102 *)
  Definition hDropLevelNew pp (o : order) h (c : hck) (levels : nat) : res (heap * hck) :=
    '(h, d) <- hCopyNew (o 0%nat) h (hv c) ;; h <- hDropLevel pp (o 1%nat) h d levels ;; Ok (h, HC d (hsc c)).

  (** mkckks/evaluator.go:117-198; [out] may be [c0].  Returns the heap and the scale of ctOut *)
  Definition hMultByConst pp (o : list string -> list string) h (c0 : hck) (constant : gconst) (out : hct) : res (heap * f64) :=
    l0 <- hLevel h (hv c0) ;;
    lo <- hLevel h out ;;
    let level := Nat.min l0 lo in
    let '(cReal, cImag, scale) := getConstAndScale pp level constant in
    cs <- rmapM (fun i => scaledConsts (N := N) (Qi pp i) cReal cImag scale) (seq 0 (S level)) ;;
    h <- rfold (fun h id =>
           p0 <- hgetL h (hv c0) id level ;;
           p1 <- hread h out id ;;
           rows <- wrLvl level (tab (S level) (fun i => halves_row (Qi pp i) (nth i cs (0, 0)) (row (prows p0) i))) (prows p1) ;;
           hwrite h out id (Pol rows (pntt p1))) (o (keys (hv c0))) h ;;
    Ok (h, f_mul (hsc c0) scale).

  (** mkckks/evaluator.go:200-304 for a receiver that is neither operand.  Returns the heap and ctxtPool *)
  Definition hEvaluateInPlace pp (o : order) h (pool : hct) (c0 c1 out : hck) (ev : modulus -> R -> R -> R) : res (heap * hct) :=
    ids0 <- hIDSet (o 0%nat) (hv c0) ;;
    ids1 <- hIDSet (o 1%nat) (hv c1) ;;
    ids <- is_union o 2%nat ids0 ids1 ;;
    '(h, pool) <- hPad (fun n => o (10 + n)%nat) h pool ids ;;
    l0 <- hLevel h (hv c0) ;;
    l1 <- hLevel h (hv c1) ;;
    lo <- hLevel h (hv out) ;;
    let level := Nat.min (Nat.min l0 l1) lo in
    h <- (if (level <? lo)%nat then hDropLevel pp (o 4%nat) h (hv out) (lo - Nat.min l0 l1) else Ok h) ;;
    let r10 := f_floor (f_div (hsc c1) (hsc c0)) in
    let r01 := f_floor (f_div (hsc c0) (hsc c1)) in
    '(h, tmp0, tmp1) <-
      (if f_gt (hsc c1) (hsc c0) && f_gt r10 f_one
       then '(h, _) <- hMultByConst pp (o 5%nat) h c0 (CFloat r10) pool ;; Ok (h, pool, hv c1)
       else if f_gt (hsc c0) (hsc c1) && f_gt r01 f_one
       then '(h, _) <- hMultByConst pp (o 5%nat) h c1 (CFloat r01) pool ;; Ok (h, hv c0, pool)
       else Ok (h, hv c0, hv c1)) ;;
    a0 <- hgetL h tmp0 id0 level ;;
    b0 <- hgetL h tmp1 id0 level ;;
    p <- hread h (hv out) id0 ;;
    rows <- wrLvl level (lvlQ2 pp level ev (prows a0) (prows b0)) (prows p) ;;
    h <- hwrite h (hv out) id0 (Pol rows (pntt p)) ;;
    idso <- hIDSet (o 6%nat) (hv out) ;;
    h <- rfold (fun h id =>
           p <- hread h (hv out) id ;;
           if negb (is_has ids0 id) then
             q <- hgetL h tmp1 id level ;; rows <- wrLvl level (prows q) (prows p) ;; hwrite h (hv out) id (Pol rows (pntt p))
           else if negb (is_has ids1 id) then
             q <- hgetL h tmp0 id level ;; rows <- wrLvl level (prows q) (prows p) ;; hwrite h (hv out) id (Pol rows (pntt p))
           else
             a <- hgetL h tmp0 id level ;; b <- hgetL h tmp1 id level ;;
             rows <- wrLvl level (lvlQ2 pp level ev (prows a) (prows b)) (prows p) ;; hwrite h (hv out) id (Pol rows (pntt p)))
         (o 7%nat (keys idso)) h ;;
    Ok (h, pool).
  (** mkckks/evaluator.go:306-313 *)
  Definition hNewBinary (o : order) h (c0 c1 : hck) : res (heap * hck) :=
    l0 <- hLevel h (hv c0) ;;
    l1 <- hLevel h (hv c1) ;;
    ids0 <- hIDSet (o 20%nat) (hv c0) ;;
    ids1 <- hIDSet (o 21%nat) (hv c1) ;;
    ids <- is_union o 22%nat ids0 ids1 ;;
    let '(h, v) := hNew (o 24%nat) h ids (Nat.min l0 l1) in
    Ok (h, HC v (f_max (hsc c0) (hsc c1))).
  (** mkckks/evaluator.go:316-326 *)
  Definition hAddNew pp (o : order) h (pool : hct) (c0 c1 : hck) : res (heap * hct * hck) :=
    '(h, out) <- hNewBinary o h c0 c1 ;; '(h, pool) <- hEvaluateInPlace pp o h pool c0 c1 out r_add ;; Ok (h, pool, out).
  (** mkckks/evaluator.go:329-351 *)
  Definition hSubNew pp (o : order) h (pool : hct) (c0 c1 : hck) : res (heap * hct * hck) :=
    '(h, out) <- hNewBinary o h c0 c1 ;;
    '(h, pool) <- hEvaluateInPlace pp o h pool c0 c1 out r_sub ;;
    l0 <- hLevel h (hv c0) ;;
    l1 <- hLevel h (hv c1) ;;
    lo <- hLevel h (hv out) ;;
    let level := Nat.min (Nat.min l0 l1) lo in
    ids0 <- hIDSet (o 30%nat) (hv c0) ;;
    idso <- hIDSet (o 31%nat) (hv out) ;;
    h <- rfold (fun h id =>
           if negb (is_has ids0 id)
           then p <- hread h (hv out) id ;; rows <- wrLvl level (lvlQ1 pp level r_neg (prows p)) (prows p) ;; hwrite h (hv out) id (Pol rows (pntt p))
           else Ok h) (o 32%nat (keys idso)) h ;;
    Ok (h, pool, out).

  (** mkckks/evaluator.go:359-398; [out] may be [cin] ([same]).  Returns the heap, the scale of ctOut and whether an error is reported *)
  Definition hRescale pp (o : list string -> list string) h (cin : hck) (minScale : f64) (out : hck) : res (heap * f64 * bool) :=
    if f_le minScale f_zero then Ok (h, hsc out, true) else
    if f_eq (hsc cin) f_zero then Ok (h, hsc out, true) else
    level <- hLevel h (hv cin) ;;
    if (level =? 0)%nat then Ok (h, hsc out, true) else
    '(scale, nb) <- rescLoop pp (level + 2) level 0 (hsc cin) (f_div minScale (f_of_int 2)) ;;
    if (0 <? nb)%nat
    then
      h <- rfold (fun h id =>
             p <- hgetL h (hv cin) id level ;;
             q <- hread h (hv out) id ;;
             (if (length (prows q) <? S level - nb)%nat then Panic else
              hwrite h (hv out) id (Pol (divRoundMany pp nb level (prows p)) (pntt q)))) (o (keys (hv out))) h ;;
      Ok (h, scale, false)
    else Ok (h, scale, false). (* the copy of line 393 is dropped *)
  (** mkckks/evaluator.go:406-411 *)
  Definition hRescaleNew pp (o : order) h (c : hck) (threshold : f64) : res (heap * hck * bool) :=
    ids <- hIDSet (o 0%nat) (hv c) ;;
    level <- hLevel h (hv c) ;;
    let '(h, v) := hNew (o 2%nat) h ids level in
    '(h, s, e) <- hRescale pp (o 1%nat) h c threshold (HC v (hsc c)) ;;
    Ok (h, HC v s, e).

  (** mkckks/evaluator.go:465-481 *)
  Definition hMulPtxtNew pp (o : order) (pscale : f64) h (polyQ : list R) (c : hck) (pt : poly N) (ptScale : f64) : res (heap * list R * hck) :=
    ids <- hIDSet (o 0%nat) (hv c) ;;
    level <- hLevel h (hv c) ;;
    let '(h, v) := hNew (o 1%nat) h ids level in
    if (length (prows pt) <=? level)%nat then Panic else
    let pool := lvlQ1 pp level r_mform (lvlQ1 pp level ntt (prows pt)) in
    pool <- wrLvl level pool polyQ ;;
    h <- rfold (fun h id =>
           p <- hgetL h (hv c) id level ;;
           q <- hread h v id ;;
           hwrite h v id (Pol (lvlQ1 pp level intt (lvlQ2 pp level r_mont (lvlQ1 pp level ntt (prows p)) pool)) (pntt q)))
         (o 2%nat (keys (hv c))) h ;;
    let out := HC v (f_mul (hsc c) ptScale) in
    '(h, s, _) <- hRescale pp (o 3%nat) h out pscale out ;;
    Ok (h, pool, HC v s).

  (** mkrlwe/keyswitch.go:165, 179, keyswitch_hoisted.go:80-92, 101-112 *)
  Definition hhdig pp level (d : option (hoisted N)) h (op : hct) id : res (swk N) :=
    match d with None => p <- hgetL h op id level ;; Decompose pp level p | Some m => hget m id end.
  Definition hExtOp pp level (d : option (hoisted N)) h (op : hct) id (key : swk N) : res (list R) :=
    match d with
    | None => p <- hgetL h op id level ;; ExternalProduct pp level p key
    | Some m => d <- hget m id ;; ExternalProductHoisted pp level d key
    end.
  (** mkrlwe/keyswitch.go:150-188, keyswitch_hoisted.go:72-117: reads only *)
  Definition hgenVec pp level (sel : relinKey N -> swk N) (d : option (hoisted N)) h (op : hct) (rs : rlkset N) (l : list string) : res (swk N) :=
    x <- rfold (fun acc id => ds <- hhdig pp level d h op id ;; k <- rlk_get rs id ;; macAdd pp level (sel k) ds acc)
               l (tab (beta pp level) (fun _ => zeroQP pp level)) ;;
    Ok (map (lvl1 pp level r_mform) x).
  (** mkrlwe/keyswitch_hoisted.go:119-144 *)
  Definition hprodStage pp level (o : order) h (op0 op1 : hct) (ids0 ids1 : idset) (out : hct) : res heap :=
    a0 <- hgetL h op0 id0 level ;;
    b0 <- hgetL h op1 id0 level ;;
    let aN := lvlQ1 pp level r_mform (lvlQ1 pp level ntt (prows a0)) in
    let bN := lvlQ1 pp level ntt (prows b0) in
    h <- hwr h out id0 (lvlQ2 pp level r_mont aN bN) ;;
    let bM := lvlQ1 pp level r_mform bN in
    h <- rfold (fun h id => p <- hgetL h op0 id level ;; hwr h out id (lvlQ2 pp level r_mont bM (lvlQ1 pp level ntt (prows p)))) (o 4%nat (keys ids0)) h ;;
    h <- rfold (fun h id =>
             p <- hgetL h op1 id level ;;
             if is_has ids0 id
             then q <- hread h out id ;; hwr h out id (lvlQ3 pp level r_mont_add aN (lvlQ1 pp level ntt (prows p)) (prows q))
             else hwr h out id (lvlQ2 pp level r_mont aN (lvlQ1 pp level ntt (prows p)))) (o 5%nat (keys ids1)) h ;;
    rfold (fun h id => q <- hread h out id ;; hwr h out id (lvlQ1 pp level intt (prows q))) (o 6%nat (keys out)) h.
  (** mkrlwe/keyswitch_hoisted.go:146-154 *)
  Definition hxStage pp level (o : order) (d1 : option (hoisted N)) h (op1 : hct) (ids1 : idset) (x : swk N) (out : hct) : res heap :=
    rfold (fun h id => e <- hExtOp pp level d1 h op1 id x ;; q <- hread h out id ;; hwr h out id (lvlQ2 pp level r_add (prows q) e)) (o 7%nat (keys ids1)) h.
  (** mkrlwe/keyswitch_hoisted.go:159-178 *)
  Definition hvStage pp level (o : order) (crs : crsT N) (rs : rlkset N) (d0 : option (hoisted N)) h (op0 : hct) (ids0 : idset) (y : swk N) (out : hct) : res heap :=
    rfold (fun h id =>
       k <- rlk_get rs id ;;
       w <- hExtOp pp level d0 h op0 id y ;;
       dw <- Decompose pp level (Pol w false) ;;
       ev <- ExternalProductHoisted pp level dw (rlk_v k) ;;
       q0 <- hread h out id0 ;;
       h <- hwr h out id0 (lvlQ2 pp level r_add (prows q0) ev) ;;
       u <- crs_get crs (-1) ;;
       eu <- ExternalProductHoisted pp level dw u ;;
       q <- hread h out id ;;
       hwr h out id (lvlQ2 pp level r_add (prows q) eu)) (o 8%nat (keys ids0)) h.
  (** mkrlwe/keyswitch_hoisted.go:44-179 *)
  Definition hMulAndRelinHoisted pp (o : order) (crs : crsT N) h (op0 op1 : hct) (d0 d1 : option (hoisted N)) (rs : rlkset N) (out : hct) : res heap :=
    level <- hLevel h out ;;
    l0 <- hLevel h op0 ;;
    if (l0 <? level)%nat then Panic else
    ids0 <- hIDSet (o 0%nat) op0 ;;
    ids1 <- hIDSet (o 1%nat) op1 ;;
    x <- hgenVec pp level rlk_d d0 h op0 rs (o 2%nat (keys ids0)) ;;
    y <- hgenVec pp level rlk_b d1 h op1 rs (o 3%nat (keys ids1)) ;;
    h <- hprodStage pp level o h op0 op1 ids0 ids1 out ;;
    h <- hxStage pp level o d1 h op1 ids1 x out ;;
    hvStage pp level o crs rs d0 h op0 ids0 y out.

  (** mkckks/evaluator.go:570-581 and 558-564 *)
  Definition hMulRelinHoistedNew pp (o : order) (crs : crsT N) (pscale : f64) h (c0 c1 : hck) (d0 d1 : option (hoisted N)) (rs : rlkset N) : res (heap * hck) :=
    '(h, out) <- hNewBinary o h c0 c1 ;;
    l0 <- hLevel h (hv c0) ;;
    l1 <- hLevel h (hv c1) ;;
    lo <- hLevel h (hv out) ;;
    let level := Nat.min (Nat.min l0 l1) lo in
    h <- (if (level <? lo)%nat then hDropLevel pp (o 40%nat) h (hv out) (lo - level) else Ok h) ;;
    h <- hMulAndRelinHoisted pp o crs h (hv c0) (hv c1) d0 d1 rs (hv out) ;;
    let out := HC (hv out) (f_mul (hsc c0) (hsc c1)) in
    '(h, s, _) <- hRescale pp (o 41%nat) h out pscale out ;;
    Ok (h, HC (hv out) s).
  (** mkckks/evaluator.go:543-553 *)
  Definition hHoistedForm pp (o : order) h (c : hct) : res (hoisted N) :=
    ids <- hIDSet (o 50%nat) c ;;
    level <- hLevel h c ;;
    rfold (fun m id => p <- hgetL h c id level ;; d <- Decompose pp level p ;; Ok (mset seq_dec m id d)) (o 51%nat (keys ids)) nil.
  (** mkckks/evaluator.go:416-443; the operands are compared as pointers ([same]) *)
  Definition hhoistInto pp (o : list string -> list string) (rs : rlkset N) h (c : hct) (ids : idset) : res (hoisted N) :=
    level <- hLevel h c ;;
    rfold (fun m id => p <- hgetL h c id level ;; _ <- rlk_get rs id ;; d <- Decompose pp level p ;; Ok (mset seq_dec m id d)) (o (keys ids)) nil.
  Definition hMulRelinNew pp (o : order) (crs : crsT N) (pscale : f64) h (c0 c1 : hck) (same : bool) (rs : rlkset N) : res (heap * hck) :=
    ids0 <- hIDSet (o 60%nat) (hv c0) ;;
    if same then
      d <- hhoistInto pp (o 61%nat) rs h (hv c0) ids0 ;;
      hMulRelinHoistedNew pp o crs pscale h c0 c1 (Some d) (Some d) rs
    else
      ids1 <- hIDSet (o 62%nat) (hv c1) ;;
      d0 <- hhoistInto pp (o 61%nat) rs h (hv c0) ids0 ;;
      d1 <- hhoistInto pp (o 63%nat) rs h (hv c1) ids1 ;;
      hMulRelinHoistedNew pp o crs pscale h c0 c1 (Some d0) (Some d1) rs.

  (** mkrlwe/keyswitch.go:240-298 and keyswitch_hoisted.go:183-247 *)
  Definition hRotateGen pp (o : order) (crs : crsT N) (d : option (hoisted N)) h (cin : hct) (rotidx : Z) (rk : rotset N) (out : hct) : res heap :=
    level <- hLevel h out ;;
    ids <- hIDSet (o 0%nat) cin ;;
    lin <- hLevel h cin ;;
    if (lin <? level)%nat then Panic else
    k <- norm_rot N rotidx ;;
    p0 <- hread h cin id0 ;;
    q0 <- hread h out id0 ;;
    h <- hwrite h out id0 (polyCopy q0 p0) ;;
    h <- rfold (fun h id =>
       key <- rk_get rk id k ;;
       e <- hExtOp pp level d h cin id (rtk_val key) ;;
       q0 <- hread h out id0 ;;
       h <- hwr h out id0 (lvlQ2 pp level r_add (prows q0) e) ;;
       a <- crs_get crs k ;;
       ea <- hExtOp pp level d h cin id a ;;
       hwr h out id ea) (o 1%nat (keys ids)) h ;;
    rfold (fun h id => q <- hread h out id ;; hwrite h out id (polyCopy q (Pol (permRows pp level (galEl N k) (prows q)) false))) (o 2%nat (keys cin)) h.
  (** mkckks/evaluator.go:516-523 *)
  Fixpoint hrotChain pp (o : nat -> order) (crs : crsT N) (fuel : nat) (k rotidx : Z) (rk : rotset N) h (tmp out : hct) : res heap :=
    match fuel with
    | O => if 0 <? rotidx then Panic else Ok h
    | S fuel =>
      if 0 <? rotidx then
        h <- (if negb (rotidx mod 2 =? 0)
              then h <- hRotateGen pp (o fuel) crs None h tmp k rk out ;; hCopy (o fuel 9%nat) h tmp out
              else Ok h) ;;
        hrotChain pp o crs fuel (k * 2) (rotidx / 2) rk h tmp out
      else Ok h
    end.
  (** mkckks/evaluator.go:493-525 *)
  Definition hrotate pp (o : nat -> order) (crs : crsT N) h (c : hct) (rotidx : Z) (rk : rotset N) (out : hct) : res heap :=
    k <- rotNorm (N := N) rotidx ;;
    if k =? 0 then hCopy (o 0%nat 0%nat) h out c else
    match mget Z.eq_dec crs k with
    | Some _ => hRotateGen pp (o 0%nat) crs None h c k rk out
    | None => '(h, tmp) <- hCopyNew (o 0%nat 0%nat) h c ;; hrotChain pp o crs (Z.to_nat k) 1 k rk h tmp out
    end.
  (** mkckks/evaluator.go:485-489 *)
  Definition hRotateNew pp (o : nat -> order) (crs : crsT N) h (c : hck) (rotidx : Z) (rk : rotset N) : res (heap * hck) :=
    ids <- hIDSet (o 0%nat 1%nat) (hv c) ;;
    level <- hLevel h (hv c) ;;
    let '(h, v) := hNew (o 0%nat 2%nat) h ids level in
    h <- hrotate pp o crs h (hv c) rotidx rk v ;;
    Ok (h, HC v (hsc c)).
  (** mkckks/evaluator.go:585-617 *)
  Definition hRotateHoistedNew pp (o : nat -> order) (crs : crsT N) h (c : hck) (rotidx : Z) (d : hoisted N) (rk : rotset N) : res (heap * hck) :=
    ids <- hIDSet (o 0%nat 1%nat) (hv c) ;;
    level <- hLevel h (hv c) ;;
    let '(h, v) := hNew (o 0%nat 2%nat) h ids level in
    h <- (k <- rotNorm (N := N) rotidx ;;
          if k =? 0 then hCopy (o 0%nat 0%nat) h v (hv c) else
          match mget Z.eq_dec crs k with
          | Some _ => hRotateGen pp (o 0%nat) crs (Some d) h (hv c) k rk v
          | None => Panic
          end) ;;
    Ok (h, HC v (hsc c)).
  (** mkrlwe/keyswitch.go:302-332 *)
  Definition hConjugate pp (o : order) (crs : crsT N) h (cin : hct) (ck : conjset N) (out : hct) : res heap :=
    level <- hLevel h out ;;
    ids <- hIDSet (o 0%nat) cin ;;
    lin <- hLevel h cin ;;
    if (lin <? level)%nat then Panic else
    h <- rfold (fun h id =>
       p <- hgetL h cin id (maxLevel pp) ;;
       _ <- hgetL h out id (maxLevel pp) ;;
       hwr h out id (permRows pp (maxLevel pp) (conjEl N) (prows p))) (o 1%nat (keys cin)) h ;;
    h <- rfold (fun h id =>
       key <- ks_get ck id ;;
       e <- hExtOp pp level None h out id (cjk_val key) ;;
       q0 <- hread h out id0 ;;
       hwr h out id0 (lvlQ2 pp level r_add (prows q0) e)) (o 2%nat (keys ids)) h ;;
    rfold (fun h id =>
       a <- crs_get crs (-2) ;;
       e <- hExtOp pp level None h out id a ;;
       q <- hread h out id ;;
       hwrite h out id (polyCopy q (Pol e false))) (o 3%nat (keys ids)) h.
  (** mkckks/evaluator.go:530-540 *)
  Definition hConjugateNew pp (o : order) (crs : crsT N) h (c : hck) (ck : conjset N) : res (heap * hck) :=
    ids <- hIDSet (o 60%nat) (hv c) ;;
    level <- hLevel h (hv c) ;;
    let '(h, v) := hNew (o 61%nat) h ids level in
    h <- hConjugate pp o crs h (hv c) ck v ;;
    Ok (h, HC v (hsc c)).

  (** ** a program that holds ciphertexts and calls one Evaluator *)
  (** the heap, the scratch space of the Evaluator, the ciphertexts (the index is the pointer) *)
  Record hworld := HW { hwh : heap; hwpool : hct; hwpoly : list R; hwcts : list hck }.
  (** mkckks/evaluator.go:23-38 *)
  Definition hinit pp : hworld := let '(h, c) := hNew (fun l => l) nil is_new (maxLevel pp) in HW h c (tab (S (maxLevel pp)) (fun _ => R0)) nil.
  (** the calls; the arguments are positions in the list of ciphertexts; calls that return a ciphertext append it *)
  Inductive hop :=
  | HPut (c : ckct N)                       (* a new ciphertext with these contents, as an Encryptor returns it *)
  | HCopy (a : nat)                         (* a.CopyNew() *)
  | HAdd (a b : nat) | HSub (a b : nat)     (* AddNew, SubNew *)
  | HDrop (a n : nat) | HDropNew (a n : nat)   (* DropLevel in place, DropLevelNew *)
  | HConst (a : nat) (k : gconst) (b : nat)    (* MultByConst(a, k, b), a = b allowed *)
  | HRescale (a : nat) (s : f64) (b : nat)     (* Rescale(a, s, b), a = b allowed *)
  | HRescaleNew (a : nat) (s : f64)
  | HPt (a : nat) (pt : poly N) (s : f64)      (* MulPtxtNew *)
  | HMul (a b : nat) | HMulH (a b : nat)       (* MulRelinNew; HoistedForm of both and MulRelinHoistedNew *)
  | HRot (a : nat) (k : Z) | HRotH (a : nat) (k : Z) (* RotateNew; HoistedForm and RotateHoistedNew *)
  | HConj (a : nat).
  (** the ciphertext a call may change *)
  Definition dest (i : hop) : option nat := match i with HDrop a _ => Some a | HConst _ _ b => Some b | HRescale _ _ b => Some b | _ => None end.

  (** keys and parameters of the calls *)
  Record henv := HE { he_crs : crsT N; he_scale : f64; he_rlk : rlkset N; he_rot : rotset N; he_cj : conjset N }.
  Definition hput h (v : ctT N) : heap * hct := (h ++ map snd v, combine (keys v) (seq (length h) (length v))).
  Definition hcall pp (e : henv) (o : nat -> order) (w : hworld) (i : hop) : res hworld :=
    let cts := hwcts w in let h := hwh w in
    let ret h pool pol out := Ok (HW h pool pol (cts ++ [out])) in
    match i with
    | HPut c => let '(h, v) := hput h (cv c) in ret h (hwpool w) (hwpoly w) (HC v (csc c))
    | HCopy a => x <- idx cts a ;; '(h, v) <- hCopyNew (o 0%nat 0%nat) h (hv x) ;; ret h (hwpool w) (hwpoly w) (HC v (hsc x))
    | HAdd a b => x <- idx cts a ;; y <- idx cts b ;; '(h, pool, out) <- hAddNew pp (o 0%nat) h (hwpool w) x y ;; ret h pool (hwpoly w) out
    | HSub a b => x <- idx cts a ;; y <- idx cts b ;; '(h, pool, out) <- hSubNew pp (o 0%nat) h (hwpool w) x y ;; ret h pool (hwpoly w) out
    | HDrop a n => x <- idx cts a ;; h <- hDropLevel pp (o 0%nat 0%nat) h (hv x) n ;; Ok (HW h (hwpool w) (hwpoly w) cts)
    | HDropNew a n => x <- idx cts a ;; '(h, out) <- hDropLevelNew pp (o 0%nat) h x n ;; ret h (hwpool w) (hwpoly w) out
    | HConst a k b => x <- idx cts a ;; y <- idx cts b ;; '(h, s) <- hMultByConst pp (o 0%nat 0%nat) h x k (hv y) ;; Ok (HW h (hwpool w) (hwpoly w) (upd cts b (HC (hv y) s)))
    | HRescale a s b => x <- idx cts a ;; y <- idx cts b ;; '(h, s, _) <- hRescale pp (o 0%nat 0%nat) h x s y ;; Ok (HW h (hwpool w) (hwpoly w) (upd cts b (HC (hv y) s)))
    | HRescaleNew a s => x <- idx cts a ;; '(h, out, _) <- hRescaleNew pp (o 0%nat) h x s ;; ret h (hwpool w) (hwpoly w) out
    | HPt a pt s => x <- idx cts a ;; '(h, pol, out) <- hMulPtxtNew pp (o 0%nat) (he_scale e) h (hwpoly w) x pt s ;; ret h (hwpool w) pol out
    | HMul a b => x <- idx cts a ;; y <- idx cts b ;; '(h, out) <- hMulRelinNew pp (o 0%nat) (he_crs e) (he_scale e) h x y (a =? b)%nat (he_rlk e) ;; ret h (hwpool w) (hwpoly w) out
    | HMulH a b => x <- idx cts a ;; y <- idx cts b ;; d0 <- hHoistedForm pp (o 1%nat) h (hv x) ;; d1 <- hHoistedForm pp (o 2%nat) h (hv y) ;;
                   '(h, out) <- hMulRelinHoistedNew pp (o 0%nat) (he_crs e) (he_scale e) h x y (Some d0) (Some d1) (he_rlk e) ;; ret h (hwpool w) (hwpoly w) out
    | HRot a k => x <- idx cts a ;; '(h, out) <- hRotateNew pp o (he_crs e) h x k (he_rot e) ;; ret h (hwpool w) (hwpoly w) out
    | HRotH a k => x <- idx cts a ;; d <- hHoistedForm pp (o 1%nat) h (hv x) ;; '(h, out) <- hRotateHoistedNew pp o (he_crs e) h x k d (he_rot e) ;; ret h (hwpool w) (hwpoly w) out
    | HConj a => x <- idx cts a ;; '(h, out) <- hConjugateNew pp (o 0%nat) (he_crs e) h x (he_cj e) ;; ret h (hwpool w) (hwpoly w) out
    end.
  Fixpoint hrun pp (e : henv) (o : nat -> nat -> order) (n : nat) (prog : list hop) (w : hworld) : res hworld :=
    match prog with nil => Ok w | i :: prog => w <- hcall pp e (o n) w i ;; hrun pp e o (S n) prog w end.

  (** the same program on values: a list of independent ciphertexts *)
  Record vworld := VW { vwev : evalst N; vwcts : list (ckct N) }.
  Definition vcall pp (e : henv) (o : nat -> order) (w : vworld) (i : hop) : res vworld :=
    let cts := vwcts w in let st := vwev w in
    let ret st out := Ok (VW st (cts ++ [out])) in
    match i with
    | HPut c => ret st c
    | HCopy a => x <- idx cts a ;; out <- ckCopyNew (o 0%nat 0%nat) x ;; ret st out
    | HAdd a b => x <- idx cts a ;; y <- idx cts b ;; '(st, out) <- AddNew pp (o 0%nat) st x y ;; ret st out
    | HSub a b => x <- idx cts a ;; y <- idx cts b ;; '(st, out) <- SubNew pp (o 0%nat) st x y ;; ret st out
    | HDrop a n => x <- idx cts a ;; out <- DropLevel pp (o 0%nat 0%nat) x n ;; Ok (VW st (upd cts a out))
    | HDropNew a n => x <- idx cts a ;; out <- DropLevelNew pp (o 0%nat) x n ;; ret st out
    | HConst a k b => x <- idx cts a ;; y <- idx cts b ;; out <- MultByConst pp (o 0%nat 0%nat) x k y ;; Ok (VW st (upd cts b out))
    | HRescale a s b => x <- idx cts a ;; y <- idx cts b ;; '(out, _) <- Rescale pp (o 0%nat 0%nat) x s (if (a =? b)%nat then None else Some y) ;; Ok (VW st (upd cts b out))
    | HRescaleNew a s => x <- idx cts a ;; '(out, _) <- RescaleNew pp (o 0%nat) x s ;; ret st out
    | HPt a pt s => x <- idx cts a ;; '(st, out) <- MulPtxtNew pp (o 0%nat) (he_scale e) st x pt s ;; ret st out
    | HMul a b => x <- idx cts a ;; y <- idx cts b ;; out <- MulRelinNew pp (o 0%nat) (he_crs e) (he_scale e) x y (a =? b)%nat (he_rlk e) ;; ret st out
    | HMulH a b => x <- idx cts a ;; y <- idx cts b ;; d0 <- HoistedForm pp (o 1%nat) x ;; d1 <- HoistedForm pp (o 2%nat) y ;;
                   out <- MulRelinHoistedNew pp (o 0%nat) (he_crs e) (he_scale e) x y (Some d0) (Some d1) (he_rlk e) ;; ret st out
    | HRot a k => x <- idx cts a ;; out <- RotateNew pp o (he_crs e) x k (he_rot e) ;; ret st out
    | HRotH a k => x <- idx cts a ;; d <- HoistedForm pp (o 1%nat) x ;; out <- RotateHoistedNew pp o (he_crs e) x k d (he_rot e) ;; ret st out
    | HConj a => x <- idx cts a ;; out <- ConjugateNew pp (o 0%nat) (he_crs e) x (he_cj e) ;; ret st out
    end.
  Fixpoint vrun pp (e : henv) (o : nat -> nat -> order) (n : nat) (prog : list hop) (w : vworld) : res vworld :=
    match prog with nil => Ok w | i :: prog => w <- vcall pp e (o n) w i ;; vrun pp e o (S n) prog w end.
  (** what a program on references shows of its ciphertexts *)
  Definition contents (w : hworld) : list (ckct N) := map (fun c => CK (view (hwh w) (hv c)) (hsc c)) (hwcts w).
End Model.
Arguments hop : clear implicits.
Arguments hworld : clear implicits.
Arguments vworld : clear implicits.
Arguments henv : clear implicits.
