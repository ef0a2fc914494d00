(** Model of mkckks/elements.go and mkckks/evaluator.go.
    A CKKS ciphertext is an mkrlwe ciphertext (CtModel.v) with a float64 scale.  The evaluator's scratch ciphertext ctxtPool and
    scratch polynomial polyQPool are explicit state; the scratch space of its KeySwitcher is in KsPool.v.
    Loops over moduli and identities that only write the component they are at are run identity by identity. *)
From Verif Require Import Base IdSetModel KeySetModel NumTheory Negacyclic Ntt Word BasisExt Rows RlweModel KeyGenModel Galois CtModel KeySwitchModel FloatModel CkksFloat.
Open Scope Z_scope.

Section Model.
  Context {N : nat}.
  Notation R := (R N).
  Notation ct := (ctT N).
  Implicit Types (pp : rparams).

  (** elements.go:5-8 *)
  Record ckct := CK { cv : ct; csc : f64 }.
  (** evaluator.go:13-18 *)
  Record evalst := EV { ctxtPool : ct; polyQPool : list R }.
  (** evaluator.go:23-38: ctxtPool has no parties, polyQPool all rows *)
  Definition NewEvaluator pp : evalst := EV (NewCiphertext (fun l => l) is_new (maxLevel pp)) (tab (S (maxLevel pp)) (fun _ => R0)).

  (** elements.go:11-17 *)
  Definition ckNew (o : list string -> list string) (ids : idset) (level : nat) (scale : f64) : ckct := CK (NewCiphertext o ids level) scale.
  (** elements.go:30-33 *)
  Definition ckCopyNew (o : list string -> list string) (c : ckct) : res ckct := v <- CopyNew o (cv c) ;; Ok (CK v (csc c)).

  (** a Lvl operation writing rows 0..level of a polynomial with more rows; too few rows: index out of range *)
  Definition wrLvl level (new old : list R) : res (list R) :=
    if (length old <=? level)%nat then Panic else Ok (firstn (S level) new ++ skipn (S level) old).

  (** the argument of MultByConst: interface{} *)
  Inductive gconst := CComplex (re im : f64) | CFloat (x : f64) | CUint64 (z : Z) | CInt64 (z : Z) | CInt (z : Z) | COther.
  (** a part with a fraction asks for the scale float64(Modulus[level]) *)
  Definition hasFrac (x : f64) : bool := negb (f_eq x f_zero) && negb (f_eq (f_sub x (f_of_int (f_int64 x))) f_zero).
  (** evaluator.go:40-94 *)
  Definition getConstAndScale pp level (c : gconst) : f64 * f64 * f64 :=
    let qL := f_of_int (mq (Qi pp level)) in
    match c with
    | CComplex re im => (re, im, if hasFrac re || hasFrac im then qL else f_one)
    | CFloat x => (x, f_zero, if hasFrac x then qL else f_one)
    | CUint64 z | CInt64 z | CInt z => (f_of_int z, f_zero, f_one)
    | COther => (f_zero, f_zero, f_one)
    end.

  (** evaluator.go:106-112.  [levels] is not negative; the rows are cut for every component at the level of component "0" *)
  Definition cutRows pp (n : nat) (p : poly N) : res (poly N) := if (length (prows p) <? n)%nat then Panic else Ok (Pol (firstn n (prows p)) (pntt p)).
  Definition DropLevel pp (o : list string -> list string) (c : ckct) (levels : nat) : res ckct :=
    level <- ctLevel (cv c) ;;
    if (S level <? levels)%nat then Panic else
    v <- rfold (fun c id => p <- cget c id ;; p <- cutRows pp (S level - levels) p ;; Ok (cset c id p)) (o (keys (cv c))) (cv c) ;;
    Ok (CK v (csc c)).
  (** evaluator.go:98-102 *)
  Definition DropLevelNew pp (o : order) (c : ckct) (levels : nat) : res ckct := c <- ckCopyNew (o 0%nat) c ;; DropLevel pp (o 1%nat) c levels.

  (** NttPsi[i][1]: psi^(N/2) in Montgomery form (lattigo stores psi^j at the bit-reversed index of j) *)
  Definition nttPsi1 (m : modulus) : Z := mform (powm (mq m) (mpsi m) (Z.of_nat (N / 2))) (mq m) (bred_params (mq m)).
  (** evaluator.go:129-152, 173-176: the constants of the two halves, in Montgomery form *)
  Definition scaledConsts (m : modulus) (cReal cImag scale : f64) : res (Z * Z) :=
    let qi := mq m in
    sR <- (if negb (f_eq cReal f_zero) then scaleUpExact cReal scale qi else Ok 0) ;;
    if negb (f_eq cImag f_zero)
    then
      sI <- scaleUpExact cImag scale qi ;;
      let sI := mred sI (nttPsi1 m) qi (mred_params qi) in
      let c1 := cred (w64 (sR + sI)) qi in
      let c2 := cred (w64 (sR + (qi - sI))) qi in
      Ok (mform c1 qi (bred_params qi), mform c2 qi (bred_params qi))
    else let c1 := mform sR qi (bred_params qi) in Ok (c1, c1).
  (** evaluator.go:154-171, 178-194: the first half of a row times one constant, the second half times the other
      (the loops are unrolled by 8; N >= 16 in lattigo, so the halves are multiples of 8) *)
  Definition halves_row (m : modulus) (c : Z * Z) (a : R) : R :=
    mkR (fun i => mred (co a i) (if (i <? N / 2)%nat then fst c else snd c) (mq m) (mred_params (mq m))).
  (** evaluator.go:117-198; returns ctOut *)
  Definition MultByConst pp (o : list string -> list string) (c0 : ckct) (constant : gconst) (out : ckct) : res ckct :=
    l0 <- ctLevel (cv c0) ;;
    lo <- ctLevel (cv out) ;;
    let level := Nat.min l0 lo in
    let '(cReal, cImag, scale) := getConstAndScale pp level constant in
    cs <- rmapM (fun i => scaledConsts (Qi pp i) cReal cImag scale) (seq 0 (S level)) ;;
    v <- rfold (fun c id =>
           p0 <- cgetL (cv c0) id level ;;
           p1 <- cget c id ;;
           rows <- wrLvl level (tab (S level) (fun i => halves_row (Qi pp i) (nth i cs (0, 0)) (row (prows p0) i))) (prows p1) ;;
           Ok (cset c id (Pol rows (pntt p1)))) (o (keys (cv c0))) (cv out) ;;
    Ok (CK v (f_mul (csc c0) scale)).

  (** evaluator.go:200-304 for a receiver that is neither operand (the exported AddNew and SubNew create it).
      [ev] is AddLvl or SubLvl on rows.  Returns the evaluator state and ctOut. *)
  Definition evaluateInPlace pp (o : order) (st : evalst) (c0 c1 out : ckct) (ev : modulus -> R -> R -> R) : res (evalst * ckct) :=
    ids0 <- IDSetOf (o 0%nat) (cv c0) ;;
    ids1 <- IDSetOf (o 1%nat) (cv c1) ;;
    ids <- is_union o 2%nat ids0 ids1 ;;
    pool <- PadCiphertext (fun n => o (10 + n)%nat) (ctxtPool st) ids ;;
    l0 <- ctLevel (cv c0) ;;
    l1 <- ctLevel (cv c1) ;;
    lo <- ctLevel (cv out) ;;
    let level := Nat.min (Nat.min l0 l1) lo in
    out <- (if (level <? lo)%nat then DropLevel pp (o 4%nat) out (lo - Nat.min l0 l1) else Ok out) ;;
    let r10 := f_floor (f_div (csc c1) (csc c0)) in
    let r01 := f_floor (f_div (csc c0) (csc c1)) in
    '(pool, tmp0, tmp1) <-
      (if f_gt (csc c1) (csc c0) && f_gt r10 f_one
       then p <- MultByConst pp (o 5%nat) c0 (CFloat r10) (CK pool (csc out)) ;; Ok (cv p, cv p, cv c1)
       else if f_gt (csc c0) (csc c1) && f_gt r01 f_one
       then p <- MultByConst pp (o 5%nat) c1 (CFloat r01) (CK pool (csc out)) ;; Ok (cv p, cv c0, cv p)
       else Ok (pool, cv c0, cv c1)) ;;
    a0 <- cgetL tmp0 id0 level ;;
    b0 <- cgetL tmp1 id0 level ;;
    p <- cget (cv out) id0 ;;
    rows <- wrLvl level (lvlQ2 pp level ev (prows a0) (prows b0)) (prows p) ;;
    let v := cset (cv out) id0 (Pol rows (pntt p)) in
    idso <- IDSetOf (o 6%nat) v ;;
    v <- rfold (fun v id =>
           p <- cget v id ;;
           if negb (is_has ids0 id) then
             q <- cgetL tmp1 id level ;; rows <- wrLvl level (prows q) (prows p) ;; Ok (cset v id (Pol rows (pntt p)))
           else if negb (is_has ids1 id) then
             q <- cgetL tmp0 id level ;; rows <- wrLvl level (prows q) (prows p) ;; Ok (cset v id (Pol rows (pntt p)))
           else
             a <- cgetL tmp0 id level ;; b <- cgetL tmp1 id level ;;
             rows <- wrLvl level (lvlQ2 pp level ev (prows a) (prows b)) (prows p) ;; Ok (cset v id (Pol rows (pntt p))))
         (o 7%nat (keys idso)) v ;;
    Ok (EV pool (polyQPool st), CK v (csc out)).

  (** evaluator.go:306-313 *)
  Definition newCiphertextBinary (o : order) (c0 c1 : ckct) : res ckct :=
    l0 <- ctLevel (cv c0) ;;
    l1 <- ctLevel (cv c1) ;;
    ids0 <- IDSetOf (o 20%nat) (cv c0) ;;
    ids1 <- IDSetOf (o 21%nat) (cv c1) ;;
    ids <- is_union o 22%nat ids0 ids1 ;;
    Ok (ckNew (o 24%nat) ids (Nat.min l0 l1) (f_max (csc c0) (csc c1))).
  (** evaluator.go:316-326 *)
  Definition AddNew pp (o : order) (st : evalst) (c0 c1 : ckct) : res (evalst * ckct) :=
    out <- newCiphertextBinary o c0 c1 ;; evaluateInPlace pp o st c0 c1 out r_add.
  (** evaluator.go:329-351 *)
  Definition SubNew pp (o : order) (st : evalst) (c0 c1 : ckct) : res (evalst * ckct) :=
    out <- newCiphertextBinary o c0 c1 ;;
    '(st, out) <- evaluateInPlace pp o st c0 c1 out r_sub ;;
    l0 <- ctLevel (cv c0) ;;
    l1 <- ctLevel (cv c1) ;;
    lo <- ctLevel (cv out) ;;
    let level := Nat.min (Nat.min l0 l1) lo in
    ids0 <- IDSetOf (o 30%nat) (cv c0) ;;
    idso <- IDSetOf (o 31%nat) (cv out) ;;
    v <- rfold (fun v id =>
           if negb (is_has ids0 id)
           then p <- cget v id ;; rows <- wrLvl level (lvlQ1 pp level r_neg (prows p)) (prows p) ;; Ok (cset v id (Pol rows (pntt p)))
           else Ok v) (o 32%nat (keys idso)) (cv out) ;;
    Ok (st, CK v (csc out)).

  (** lattigo ring.DivRoundByLastModulusLvl on row i: (x + (q_l - 1)/2 - [x + (q_l - 1)/2]_{q_l}) / q_l modulo q_i *)
  Definition divround_row (m ml : modulus) (a al : R) : R :=
    let h := (mq ml - 1) / 2 in
    mkR (fun k => ((co a k + h - (co al k + h) mod mq ml) * invm (mq m) (mq ml)) mod mq m).
  (** lattigo ring.DivRoundByLastModulusManyLvl: rows 0..level become rows 0..level-nb (the scratch polynomial is overwritten before it is read) *)
  Fixpoint divRoundMany pp (nb level : nat) (rows : list R) : list R :=
    match nb with
    | O => rows
    | S nb => divRoundMany pp nb (level - 1) (tab level (fun j => divround_row (Qi pp j) (Qi pp level) (row rows j) (row rows level)))
    end.

  (** evaluator.go:380-385: the number of divisions and the scale; Modulus[-1] is an index out of range *)
  Fixpoint rescLoop pp (fuel level nb : nat) (scale minHalf : f64) : res (f64 * nat) :=
    match fuel with
    | O => Panic (* not reached: nb grows to level + 1 at most *)
    | S fuel =>
      if (level <? nb)%nat then Panic else
      let s' := f_div scale (f_of_int (mq (Qi pp (level - nb)))) in
      if f_ge s' minHalf then rescLoop pp fuel level (S nb) s' minHalf else Ok (scale, nb)
    end.
  (** evaluator.go:359-398.  [out] is None when ctOut is ctIn itself.  Returns ctOut and whether an error is reported. *)
  Definition Rescale pp (o : list string -> list string) (cin : ckct) (minScale : f64) (out : option ckct) : res (ckct * bool) :=
    let ctOut := match out with Some c => c | None => cin end in
    if f_le minScale f_zero then Ok (ctOut, true) else
    if f_eq (csc cin) f_zero then Ok (ctOut, true) else
    level <- ctLevel (cv cin) ;;
    if (level =? 0)%nat then Ok (ctOut, true) else
    '(scale, nb) <- rescLoop pp (level + 2) level 0 (csc cin) (f_div minScale (f_of_int 2)) ;;
    if (0 <? nb)%nat
    then
      v <- rfold (fun v id =>
             p <- cgetL (match out with Some _ => cv cin | None => v end) id level ;;
             q <- cget v id ;;
             (if (length (prows q) <? S level - nb)%nat then Panic else
              Ok (cset v id (Pol (divRoundMany pp nb level (prows p)) (pntt q))))) (o (keys (cv ctOut))) (cv ctOut) ;;
      Ok (CK v scale, false)
    else Ok (CK (cv ctOut) scale, false). (* ctOut = ctIn.CopyNew() assigns the local variable only *)
  (** evaluator.go:406-411 *)
  Definition RescaleNew pp (o : order) (c : ckct) (threshold : f64) : res (ckct * bool) :=
    ids <- IDSetOf (o 0%nat) (cv c) ;;
    level <- ctLevel (cv c) ;;
    Rescale pp (o 1%nat) c threshold (Some (ckNew (o 2%nat) ids level (csc c))).

  (** evaluator.go:465-481.  NTTLvl(pt.Value) reads level+1 rows of the plaintext *)
  Definition MulPtxtNew pp (o : order) (pscale : f64) (st : evalst) (c : ckct) (pt : poly N) (ptScale : f64) : res (evalst * ckct) :=
    ids <- IDSetOf (o 0%nat) (cv c) ;;
    level <- ctLevel (cv c) ;;
    let out := ckNew (o 1%nat) ids level (f_mul (csc c) ptScale) in
    if (length (prows pt) <=? level)%nat then Panic else
    let pool := lvlQ1 pp level r_mform (lvlQ1 pp level ntt (prows pt)) in
    pool <- wrLvl level pool (polyQPool st) ;;
    v <- rfold (fun v id =>
           p <- cgetL (cv c) id level ;;
           q <- cget v id ;;
           Ok (cset v id (Pol (lvlQ1 pp level intt (lvlQ2 pp level r_mont (lvlQ1 pp level ntt (prows p)) pool)) (pntt q))))
         (o 2%nat (keys (cv c))) (cv out) ;;
    '(out, _) <- Rescale pp (o 3%nat) (CK v (csc out)) pscale None ;;
    Ok (EV (ctxtPool st) pool, out).

  (** evaluator.go:570-581 and 558-564 *)
  Definition mulRelinHoisted pp (o : order) (crs : crsT N) (pscale : f64) (c0 c1 : ckct) (h0 h1 : option (hoisted N)) (rs : rlkset N) (out : ckct) : res ckct :=
    l0 <- ctLevel (cv c0) ;;
    l1 <- ctLevel (cv c1) ;;
    lo <- ctLevel (cv out) ;;
    let level := Nat.min (Nat.min l0 l1) lo in
    out <- (if (level <? lo)%nat then DropLevel pp (o 40%nat) out (lo - level) else Ok out) ;;
    v <- MulAndRelinHoisted pp o crs (cv c0) (cv c1) h0 h1 rs (cv out) ;;
    '(out, _) <- Rescale pp (o 41%nat) (CK v (f_mul (csc c0) (csc c1))) pscale None ;;
    Ok out.
  Definition MulRelinHoistedNew pp (o : order) (crs : crsT N) (pscale : f64) (c0 c1 : ckct) (h0 h1 : option (hoisted N)) (rs : rlkset N) : res ckct :=
    out <- newCiphertextBinary o c0 c1 ;; mulRelinHoisted pp o crs pscale c0 c1 h0 h1 rs (CK (cv out) f_zero).
  (** evaluator.go:543-553 *)
  Definition HoistedForm pp (o : order) (c : ckct) : res (hoisted N) :=
    ids <- IDSetOf (o 50%nat) (cv c) ;;
    level <- ctLevel (cv c) ;;
    rfold (fun h id => p <- cgetL (cv c) id level ;; d <- Decompose pp level p ;; Ok (mset seq_dec h id d)) (o 51%nat (keys ids)) nil.
  (** evaluator.go:416-443: the digits go to the buffers of the key set, which has one per key (keys.go:176-182);
      [same] says that the operands are one object *)
  Definition hoistInto pp (o : list string -> list string) (rs : rlkset N) (c : ckct) (ids : idset) : res (hoisted N) :=
    level <- ctLevel (cv c) ;;
    rfold (fun h id => p <- cgetL (cv c) id level ;; _ <- rlk_get rs id ;; d <- Decompose pp level p ;; Ok (mset seq_dec h id d)) (o (keys ids)) nil.
  Definition MulRelinNew pp (o : order) (crs : crsT N) (pscale : f64) (c0 c1 : ckct) (same : bool) (rs : rlkset N) : res ckct :=
    ids0 <- IDSetOf (o 60%nat) (cv c0) ;;
    if same then
      h <- hoistInto pp (o 61%nat) rs c0 ids0 ;;
      MulRelinHoistedNew pp o crs pscale c0 c1 (Some h) (Some h) rs
    else
      ids1 <- IDSetOf (o 62%nat) (cv c1) ;;
      h0 <- hoistInto pp (o 61%nat) rs c0 ids0 ;;
      h1 <- hoistInto pp (o 63%nat) rs c1 ids1 ;;
      MulRelinHoistedNew pp o crs pscale c0 c1 (Some h0) (Some h1) rs.

  (** the loops of evaluator.go:495-502 and 595-602: subtract N/2 while at least N/2, then add N/2 while negative *)
  Fixpoint rotDown (fuel : nat) (half k : Z) : res Z :=
    match fuel with O => if half <=? k then Panic else Ok k | S fuel => if half <=? k then rotDown fuel half (k - half) else Ok k end.
  Definition rotNorm (k : Z) : res Z :=
    let half := Z.of_nat (N / 2) in
    k <- rotDown (Z.to_nat k) half k ;; norm_loop (Z.to_nat (- k)) half k.
  (** evaluator.go:516-523: the chain of power-of-two rotations *)
  Fixpoint rotChain pp (o : nat -> order) (crs : crsT N) (fuel : nat) (k rotidx : Z) (rk : rotset N) (tmp out : ct) : res ct :=
    match fuel with
    | O => if 0 <? rotidx then Panic else Ok out
    | S fuel =>
      if 0 <? rotidx then
        '(tmp, out) <- (if negb (rotidx mod 2 =? 0)
                        then out <- Rotate pp (o fuel) crs tmp k rk out ;;
                             tmp <- Copy (o fuel 9%nat) tmp out ;; Ok (tmp, out)
                        else Ok (tmp, out)) ;;
        rotChain pp o crs fuel (k * 2) (rotidx / 2) rk tmp out
      else Ok out
    end.
  (** evaluator.go:493-525 *)
  Definition rotate pp (o : nat -> order) (crs : crsT N) (c : ct) (rotidx : Z) (rk : rotset N) (out : ct) : res ct :=
    k <- rotNorm rotidx ;;
    if k =? 0 then Copy (o 0%nat 0%nat) out c else
    match mget Z.eq_dec crs k with
    | Some _ => Rotate pp (o 0%nat) crs c k rk out
    | None => tmp <- CopyNew (o 0%nat 0%nat) c ;; rotChain pp o crs (Z.to_nat k) 1 k rk tmp out
    end.
  (** evaluator.go:485-489 *)
  Definition RotateNew pp (o : nat -> order) (crs : crsT N) (c : ckct) (rotidx : Z) (rk : rotset N) : res ckct :=
    ids <- IDSetOf (o 0%nat 1%nat) (cv c) ;;
    level <- ctLevel (cv c) ;;
    v <- rotate pp o crs (cv c) rotidx rk (NewCiphertext (o 0%nat 2%nat) ids level) ;;
    Ok (CK v (csc c)).
  (** evaluator.go:593-617, 585-589 *)
  Definition rotateHoisted pp (o : nat -> order) (crs : crsT N) (c : ct) (rotidx : Z) (h : hoisted N) (rk : rotset N) (out : ct) : res ct :=
    k <- rotNorm rotidx ;;
    if k =? 0 then Copy (o 0%nat 0%nat) out c else
    match mget Z.eq_dec crs k with
    | Some _ => RotateHoisted pp (o 0%nat) crs c k h rk out
    | None => Panic
    end.
  Definition RotateHoistedNew pp (o : nat -> order) (crs : crsT N) (c : ckct) (rotidx : Z) (h : hoisted N) (rk : rotset N) : res ckct :=
    ids <- IDSetOf (o 0%nat 1%nat) (cv c) ;;
    level <- ctLevel (cv c) ;;
    v <- rotateHoisted pp o crs (cv c) rotidx h rk (NewCiphertext (o 0%nat 2%nat) ids level) ;;
    Ok (CK v (csc c)).
  (** evaluator.go:530-540 *)
  Definition ConjugateNew pp (o : order) (crs : crsT N) (c : ckct) (ck : conjset N) : res ckct :=
    ids <- IDSetOf (o 60%nat) (cv c) ;;
    level <- ctLevel (cv c) ;;
    v <- Conjugate pp o crs (cv c) ck (NewCiphertext (o 61%nat) ids level) ;;
    Ok (CK v (csc c)).
End Model.
Arguments ckct : clear implicits.
Arguments evalst : clear implicits.
