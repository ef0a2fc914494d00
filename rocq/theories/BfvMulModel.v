(** Model of mkbfv multiplication: mkbfv/basis_extension.go, mkbfv/keygen.go, mkbfv/keyswitch.go, mkbfv/keyswitch_hoisted.go and
    MulRelinNew of mkbfv/evaluator.go.
    The scratch polynomials of KeySwitcher, FastBasisExtender and RelinearizationKeySet are local values here.
    Loop number n over a Go map takes its order from [o n]. *)
From Verif Require Import Base IdSetModel KeySetModel NumTheory Negacyclic Ntt Word FloatModel BasisExt BasisExtProofs Rows RlweModel KeyGenModel Galois CtModel KeySwitchModel BfvModel.
Open Scope Z_scope.

(** mkbfv/params.go:27-32: the chains Q, QMul, P and the plaintext modulus *)
Record bparams := BP { bQ : list modulus; bM : list modulus; bP : list modulus; bT : Z }.
(** params.go:77-78: both parameter sets have gamma = 2; R = Q ++ QMul (params.go:43-45) *)
Definition ppQ (b : bparams) : rparams := RP (bQ b) (bP b) 2.
Definition ppR (b : bparams) : rparams := RP (bQ b ++ bM b) (bP b) 2.
Definition Ms (b : bparams) : list Z := map mq (bM b).
Definition Mi (b : bparams) (k : nat) : modulus := nth k (bM b) dmod.
Definition qprod (b : bparams) : Z := prodl (Qs (ppQ b)).
Definition mprod (b : bparams) : Z := prodl (Ms b).
(** params.go:38-40 and basis_extension.go:22-28: the constructors panic unless the two chains have the same length *)
Definition NewParams (b : bparams) : res bparams := if (length (bQ b) =? length (bM b))%nat then Ok b else Panic.

(** math/big ModInverse (extended Euclid) *)
Fixpoint egcd (fuel : nat) (a b : Z) : Z * Z * Z :=
  match fuel with
  | O => (a, 1, 0)
  | S f => if b =? 0 then (a, 1, 0) else let '(g, x, y) := egcd f b (a mod b) in (g, y, x - (a / b) * y)
  end.
Definition mod_inverse (a n : Z) : Z := let '(_, x, _) := egcd (Z.to_nat (Z.log2 (a * n)) + 2) a n in x mod n.

Section Model.
  Context {N : nat}.
  Notation R := (R N).
  Notation ct := (ctT N).
  Implicit Types (b : bparams).

  (** basis_extension.go:41-43: QMul mod q in every coefficient, in Montgomery form *)
  Definition mFormM b (m : modulus) : R := r_mform m (mkR (fun _ => cred (w64 (0 + mprod b mod mq m)) (mq m))).

  (** basis_extension.go:49-63; a polynomial with fewer rows panics *)
  Definition ModUpQtoR b (pQ : list R) : res (list R) :=
    let n := length (bQ b) in
    if (length pQ <? n)%nat then Panic else
    pm <- colmap n (fun x => ModUp (Qs (ppQ b)) (Ms b) (n - 1) (n - 1) (col pQ x)) ;;
    Ok (firstn n pQ ++ pm).

  (** basis_extension.go:83-97 *)
  Definition Rescale b (pQ : list R) : res (list R) :=
    let n := length (bQ b) in
    if (length pQ <? n)%nat then Panic else
    let q0 := tab n (fun j => r_mont (Qi (ppQ b) j) (row pQ j) (mFormM b (Qi (ppQ b) j))) in
    pm <- colmap n (fun x => ModDownQPtoP (Qs (ppQ b)) (Ms b) (n - 1) (n - 1) (col q0 x) (repeat 0 n)) ;;
    pq <- colmap n (fun x => ModUp (Ms b) (Qs (ppQ b)) (n - 1) (n - 1) (col pm x)) ;;
    Ok (pq ++ pm).

  (** basis_extension.go:66-80; MulScalar (lattigo) multiplies by the Montgomery form of t mod q *)
  Definition Quantize b (pR : list R) : res (list R) :=
    let n := length (bQ b) in
    let pr := tab (n + n) (fun j => intt (Qi (ppR b) j) (r_scal (Qi (ppR b) j) (bT b) (row pR j))) in
    colmap n (fun x => ModDownQPtoQ (Qs (ppQ b)) (Ms b) (n - 1) (n - 1) (col (firstn n pr) x) (col (skipn n pr) x)).

  (** keyswitch.go:57-80: the decomposer of R (kswRP) called with the level of Q; 2*beta digits *)
  Definition DecomposeBFV b level (aR : list R) : res (swk N * swk N) :=
    ds <- rmapM (fun i => DecomposeSingleNTT (ppR b) level i aR) (seq 0 (2 * beta (ppQ b) level)) ;;
    Ok (firstn (beta (ppQ b) level) ds, skipn (beta (ppQ b) level) ds).

  (** keyswitch.go:97-105, keyswitch_hoisted.go:21-29 *)
  Definition macBFV b level (bg1 bg2 a1 a2 : swk N) : res (polyQP N) :=
    rfold (fun acc i =>
      k1 <- idx bg1 i ;; d1 <- idx a1 i ;; k2 <- idx bg2 i ;; d2 <- idx a2 i ;;
      let acc := if (i =? 0)%nat then lvl2 (ppQ b) level r_mont k1 d1 else lvl3 (ppQ b) level r_mont_add k1 d1 acc in
      Ok (lvl3 (ppQ b) level r_mont_add k2 d2 acc)) (seq 0 (beta (ppQ b) level)) (QP nil nil).
  (** keyswitch_hoisted.go:7-35 *)
  Definition ExternalProductBFVHoisted b level (a1 a2 bg1 bg2 : swk N) : res (list R) :=
    c <- macBFV b level bg1 bg2 a1 a2 ;;
    rescaleP (ppQ b) level c.
  (** keyswitch.go:83-111 *)
  Definition ExternalProductBFV b level (aR : list R) (bg1 bg2 : swk N) : res (list R) :=
    '(a1, a2) <- DecomposeBFV b level aR ;;
    ExternalProductBFVHoisted b level a1 a2 bg1 bg2.

  (** keygen.go:105-120, 134-149: the integer G_i for the block of moduli number i of [ms]; Modulus[i*alpha+j] is read for every j < alpha *)
  Definition gadInt b (ms : list Z) (i : nat) : res Z :=
    l <- rmapM (fun j => idx ms (i * alpha (ppQ b) + j)) (seq 0 (alpha (ppQ b))) ;;
    let Qi := fold_left Z.mul l 1 in
    let G := qprod b * mprod b / Qi in
    let T := mod_inverse G Qi in
    Ok (G * bT b * T * Pprod (ppQ b) / mprod b).
  (** keygen.go:122-130, 151-159 *)
  Definition bfvDigit b (sk : polyQP N) (g : Z) (smp : list R) : polyQP N :=
    let L := maxLevel (ppQ b) in
    lvl1 (ppQ b) L r_mform (lvl2 (ppQ b) L r_add (lvl1 (ppQ b) L (fun m => r_scal m g) (lvl1 (ppQ b) L r_invmform sk)) (GenGaussianError (ppQ b) smp)).
  (** keygen.go:91-162 *)
  Definition GenBFVSwitchingKey b (sk : polyQP N) (smp1 smp2 : nat -> list R) : res (swk N * swk N) :=
    k1 <- rmapM (fun i => g <- gadInt b (Qs (ppQ b)) i ;; Ok (bfvDigit b sk g (smp1 i))) (seq 0 (beta (ppQ b) (maxLevel (ppQ b)))) ;;
    k2 <- rmapM (fun i => g <- gadInt b (Ms b) i ;; Ok (bfvDigit b sk g (smp2 i))) (seq 0 (beta (ppQ b) (maxLevel (ppQ b)))) ;;
    Ok (k1, k2).

  (** keys.go:6-9: Value[0] = (b1, d1, v), Value[1] = (b2, d2, -) *)
  Record bRelinKey := BRLK { br_id : string; br_b1 : swk N; br_b2 : swk N; br_d1 : swk N; br_d2 : swk N; br_v : swk N }.

  (** keygen.go:45-63: b = -s*a + e *)
  Definition genB b (a : swk N) (sk : polyQP N) (smp : nat -> list R) : res (swk N) :=
    let L := maxLevel (ppQ b) in
    rmapM (fun i => ai <- idx a i ;;
       Ok (lvl1 (ppQ b) L r_mform (lvl2 (ppQ b) L r_sub (GenGaussianError (ppQ b) (smp i))
             (lvl1 (ppQ b) L r_invmform (lvl2 (ppQ b) L r_mont ai sk))))) (seq 0 (beta (ppQ b) L)).
  (** keygen.go:24-88 *)
  Definition bGenRelinearizationKey b (crs : crsT N) (sk r : secretKey N) (eb1 eb2 ed1 ed2 ev : nat -> list R) : res bRelinKey :=
    let pp := ppQ b in let L := maxLevel pp in
    a1 <- crs_get crs 0 ;;
    a2 <- crs_get crs (-3) ;;
    u <- crs_get crs (-1) ;;
    b1 <- genB b a1 (sk_val sk) eb1 ;;
    b2 <- genB b a2 (sk_val sk) eb2 ;;
    '(k1, k2) <- GenBFVSwitchingKey b (sk_val sk) ed1 ed2 ;;
    d1 <- swk_zip pp (fun ai di => lvl3 pp L r_mont_sub ai (sk_val r) di) a1 k1 ;;
    d2 <- swk_zip pp (fun ai di => lvl3 pp L r_mont_sub ai (sk_val r) di) a2 k2 ;;
    v <- swk_zip pp (fun ui vi => lvl1 pp L r_neg (lvl3 pp L r_mont_add ui (sk_val sk) vi)) u (GenSwitchingKey pp (sk_val r) ev) ;;
    Ok (BRLK (sk_id sk) b1 b2 d1 d2 v).

  (** keys.go:12-22.  The buffers PolyRPool1/2 and HoistPool1/2 exist for every identity ever added; an identity without key panics
      (in Go at the missing buffer or at the missing key, here at the key). *)
  Definition brlkset := gomap string bRelinKey.
  Definition brlk_get (rs : brlkset) id : res bRelinKey := match mget seq_dec rs id with Some k => Ok k | None => Panic end.
  (** the pairs (HoistPool1[k], HoistPool2[k]) *)
  Definition bhoisted := gomap string (swk N * swk N).
  Definition bhget (h : bhoisted) id : res (swk N * swk N) := match mget seq_dec h id with Some d => Ok d | None => Panic end.
  Definition levelR b : nat := (length (bQ b) + length (bM b) - 1)%nat.

  Definition bhdig b level (h : option bhoisted) (op : ct) id : res (swk N * swk N) :=
    match h with None => p <- cgetL op id (levelR b) ;; DecomposeBFV b level (prows p) | Some m => bhget m id end.
  Definition bExtOp b level (h : option bhoisted) (op : ct) id (k1 k2 : swk N) : res (list R) :=
    '(a1, a2) <- bhdig b level h op id ;;
    ExternalProductBFVHoisted b level a1 a2 k1 k2.

  (** keyswitch.go:144-189, keyswitch_hoisted.go:71-134: the vectors x (sel = d1, d2) and y (sel = b1, b2) *)
  Definition bGenVec b level (s1 s2 : bRelinKey -> swk N) (h : option bhoisted) (op : ct) (rs : brlkset) (l : list string) : res (swk N * swk N) :=
    let z := tab (beta (ppQ b) level) (fun _ => zeroQP (ppQ b) level) in
    '(x1, x2) <- rfold (fun acc id =>
        '(d1, d2) <- bhdig b level h op id ;;
        k <- brlk_get rs id ;;
        x1 <- macAdd (ppQ b) level (s1 k) d1 (fst acc) ;;
        x2 <- macAdd (ppQ b) level (s2 k) d2 (snd acc) ;;
        Ok (x1, x2)) l (z, z) ;;
    Ok (map (lvl1 (ppQ b) level r_mform) x1, map (lvl1 (ppQ b) level r_mform) x2).

  (** keyswitch.go:191-228, keyswitch_hoisted.go:136-173: products over R, multiplied by t and divided by QMul *)
  Definition bProdStage b (o : order) (op0 op1 : ct) (ids0 ids1 : idset) (out : ct) : res ct :=
    let pp := ppR b in let L := levelR b in
    a0 <- cgetL op0 id0 L ;;
    b0 <- cgetL op1 id0 L ;;
    let aN := lvlQ1 pp L r_mform (lvlQ1 pp L ntt (prows a0)) in
    let bN := lvlQ1 pp L ntt (prows b0) in
    z <- Quantize b (lvlQ2 pp L r_mont aN bN) ;;
    out <- cwr out id0 z ;;
    let bM := lvlQ1 pp L r_mform bN in
    out <- rfold (fun c id => if is_has ids1 id then Ok c else
             p <- cgetL op0 id L ;; z <- Quantize b (lvlQ2 pp L r_mont bM (lvlQ1 pp L ntt (prows p))) ;; cwr c id z) (o 4%nat (keys ids0)) out ;;
    out <- rfold (fun c id => if is_has ids0 id then Ok c else
             p <- cgetL op1 id L ;; z <- Quantize b (lvlQ2 pp L r_mont aN (lvlQ1 pp L ntt (prows p))) ;; cwr c id z) (o 5%nat (keys ids1)) out ;;
    rfold (fun c id => if is_has ids0 id then
             p <- cgetL op1 id L ;;
             let t := lvlQ2 pp L r_mont aN (lvlQ1 pp L ntt (prows p)) in
             q <- cgetL op0 id L ;;
             z <- Quantize b (lvlQ3 pp L r_mont_add bM (lvlQ1 pp L ntt (prows q)) t) ;;
             cwr c id z
           else Ok c) (o 6%nat (keys ids1)) out.

  (** keyswitch.go:230-234, keyswitch_hoisted.go:175-183 *)
  Definition bxStage b level (o : order) (h1 : option bhoisted) (op1 : ct) (ids1 : idset) (x1 x2 : swk N) (out : ct) : res ct :=
    rfold (fun c id => e <- bExtOp b level h1 op1 id x1 x2 ;; q <- cget c id ;; cwr c id (lvlQ2 (ppQ b) level r_add (prows q) e)) (o 7%nat (keys ids1)) out.

  (** keyswitch.go:239-250 *)
  Definition bvStage b level (o : order) (crs : crsT N) (rs : brlkset) (op0 : ct) (ids0 : idset) (y1 y2 : swk N) (out : ct) : res ct :=
    u <- crs_get crs (-1) ;;
    rfold (fun c id =>
       k <- brlk_get rs id ;;
       w <- bExtOp b level None op0 id y1 y2 ;;
       ev <- ExternalProduct (ppQ b) level (Pol w false) (br_v k) ;;
       q0 <- cget c id0 ;;
       c <- cwr c id0 (lvlQ2 (ppQ b) level r_add (prows q0) ev) ;;
       eu <- ExternalProduct (ppQ b) level (Pol w false) u ;;
       q <- cget c id ;;
       cwr c id (lvlQ2 (ppQ b) level r_add (prows q) eu)) (o 8%nat (keys ids0)) out.
  (** keyswitch_hoisted.go:188-206 *)
  Definition bvStageH b level (o : order) (crs : crsT N) (rs : brlkset) (h0 : option bhoisted) (op0 : ct) (ids0 : idset) (y1 y2 : swk N) (out : ct) : res ct :=
    u <- crs_get crs (-1) ;;
    rfold (fun c id =>
       k <- brlk_get rs id ;;
       w <- bExtOp b level h0 op0 id y1 y2 ;;
       dw <- Decompose (ppQ b) level (Pol w false) ;;
       ev <- ExternalProductHoisted (ppQ b) level dw (br_v k) ;;
       q0 <- cget c id0 ;;
       c <- cwr c id0 (lvlQ2 (ppQ b) level r_add (prows q0) ev) ;;
       eu <- ExternalProductHoisted (ppQ b) level dw u ;;
       q <- cget c id ;;
       cwr c id (lvlQ2 (ppQ b) level r_add (prows q) eu)) (o 8%nat (keys ids0)) out.

  (** keyswitch.go:115-251 (not called by the evaluator) *)
  Definition MulAndRelinBFV b (o : order) (crs : crsT N) (op0 op1 : ct) (rs : brlkset) (out : ct) : res ct :=
    level <- ctLevel out ;;
    l0 <- ctLevel op0 ;;
    if (l0 <? level)%nat then Panic else
    ids0 <- IDSetOf (o 0%nat) op0 ;;
    ids1 <- IDSetOf (o 1%nat) op1 ;;
    '(x1, x2) <- bGenVec b level br_d1 br_d2 None op0 rs (o 2%nat (keys ids0)) ;;
    '(y1, y2) <- bGenVec b level br_b1 br_b2 None op1 rs (o 3%nat (keys ids1)) ;;
    out <- bProdStage b o op0 op1 ids0 ids1 out ;;
    out <- bxStage b level o None op1 ids1 x1 x2 out ;;
    bvStage b level o crs rs op0 ids0 y1 y2 out.

  (** keyswitch_hoisted.go:39-207 *)
  Definition MulAndRelinBFVHoisted b (o : order) (crs : crsT N) (op0 op1 : ct) (h0 h1 : option bhoisted) (rs : brlkset) (out : ct) : res ct :=
    level <- ctLevel out ;;
    l0 <- ctLevel op0 ;;
    if (l0 <? level)%nat then Panic else
    ids0 <- IDSetOf (o 0%nat) op0 ;;
    ids1 <- IDSetOf (o 1%nat) op1 ;;
    '(x1, x2) <- bGenVec b level br_d1 br_d2 h0 op0 rs (o 2%nat (keys ids0)) ;;
    '(y1, y2) <- bGenVec b level br_b1 br_b2 h1 op1 rs (o 3%nat (keys ids1)) ;;
    out <- bProdStage b o op0 op1 ids0 ids1 out ;;
    out <- bxStage b level o h1 op1 ids1 x1 x2 out ;;
    bvStageH b level o crs rs h0 op0 ids0 y1 y2 out.

  (** evaluator.go:101-109, 125-133: the operands over R *)
  Definition liftCt (conv : list R -> res (list R)) (l : list string) (c : ct) : res ct :=
    rfold (fun acc id => p <- cget c id ;; r <- conv (prows p) ;; Ok (cset acc id (Pol r false))) l nil.
  (** evaluator.go:138-144 *)
  Definition hoistCt b level (l : list string) (cR : ct) : res bhoisted :=
    rfold (fun acc id => p <- cget cR id ;; d <- DecomposeBFV b level (prows p) ;; Ok (mset seq_dec acc id d)) l nil.

  (** evaluator.go:118-150 *)
  Definition bMulRelinHoisted b (o : order) (crs : crsT N) (c0 c1 : ct) (rs : brlkset) (out : ct) : res ct :=
    c0R <- liftCt (ModUpQtoR b) (o 40%nat (keys c0)) c0 ;;
    c1R <- liftCt (Rescale b) (o 41%nat (keys c1)) c1 ;;
    ids0 <- IDSetOf (o 42%nat) c0 ;;
    ids1 <- IDSetOf (o 43%nat) c1 ;;
    l0 <- ctLevel c0 ;;
    h0 <- hoistCt b l0 (o 44%nat (keys ids0)) c0R ;;
    l1 <- ctLevel c1 ;;
    h1 <- hoistCt b l1 (o 45%nat (keys ids1)) c1R ;;
    MulAndRelinBFVHoisted b o crs c0R c1R (Some h0) (Some h1) rs out.
  (** evaluator.go:84-88 *)
  Definition bMulRelinNew b (o : order) (crs : crsT N) (c0 c1 : ct) (rs : brlkset) : res ct :=
    out <- bNewBinary (ppQ b) o c0 c1 ;;
    bMulRelinHoisted b o crs c0 c1 rs out.
  (** evaluator.go:94-112 (unused by MulRelinNew) *)
  Definition bMulRelin b (o : order) (crs : crsT N) (c0 c1 : ct) (rs : brlkset) (out : ct) : res ct :=
    c0R <- liftCt (ModUpQtoR b) (o 40%nat (keys c0)) c0 ;;
    c1R <- liftCt (Rescale b) (o 41%nat (keys c1)) c1 ;;
    MulAndRelinBFV b o crs c0R c1R rs out.
End Model.
Arguments bRelinKey : clear implicits.
Arguments brlkset : clear implicits.
Arguments bhoisted : clear implicits.
