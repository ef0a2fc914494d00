(** Model of mkbfv/keyswitch.go, keyswitch_hoisted.go, basis_extension.go, keys.go and evaluator.go with every scratch buffer as state:
    the buffers of the mkbfv KeySwitcher (and of the mkrlwe KeySwitcher it embeds, KsPool.v), those of its FastBasisExtender and of the evaluator's
    own one, and the buffers PolyRPool1/2 and HoistPool1/2 that a RelinearizationKeySet carries.
    BfvMulModel.v and BfvModel.v are the versions whose scratch values are local; BfvPoolProofs.v proves that both return the same results. *)
From Flocq Require Import Core BinarySingleNaN.
From Verif Require Import Base IdSetModel KeySetModel NumTheory Negacyclic Ntt Word FloatModel CkksFloat BasisExt BasisExtProofs Rows RlweModel KeyGenModel Galois CtModel KeySwitchModel CkksModel BfvModel BfvMulModel KsPool EvalPool.
Open Scope Z_scope.

Section Model.
  Context {N : nat}.
  Notation R := (R N).
  Notation ct := (ctT N).
  Notation kst := (kst N).
  Implicit Types (b : bparams).

  (** basis_extension.go:14-16: polypoolQ, polypoolQMul, polypoolR (mFormQMul is written by the constructor only;
      the buffer of convQQMul is written before it is read inside one call, mkrlwe/basis_extension.go:192-232, 288-330) *)
  Record cvt := CV { vQ : list R; vM : list R; vR : list R }.
  (** basis_extension.go:36-38 *)
  Definition newCV b : cvt := CV (tab (length (bQ b)) (fun _ => R0)) (tab (length (bM b)) (fun _ => R0)) (tab (length (bQ b ++ bM b)) (fun _ => R0)).

  (** keyswitch.go:6-28: the embedded KeySwitcher, conv, swkRPPool, swkPool1..6, polyQPool1/2, polyRPool1..4 (kswRP has buffers too, but only its
      decomposer is called, keyswitch.go:65); bEv is the evaluator's conv (evaluator.go:10) *)
  Record bst := BS { bK : kst; bCv : cvt; bEv : cvt; bRP : swk N; bw1 : swk N; bw2 : swk N; bw3 : swk N; bw4 : swk N; bw5 : swk N; bw6 : swk N;
                     bq1 : poly N; bq2 : poly N; br1 : list R; br2 : list R; br3 : list R; br4 : list R }.
  Definition stK (s : bst) x := BS x (bCv s) (bEv s) (bRP s) (bw1 s) (bw2 s) (bw3 s) (bw4 s) (bw5 s) (bw6 s) (bq1 s) (bq2 s) (br1 s) (br2 s) (br3 s) (br4 s).
  Definition stCv (s : bst) x := BS (bK s) x (bEv s) (bRP s) (bw1 s) (bw2 s) (bw3 s) (bw4 s) (bw5 s) (bw6 s) (bq1 s) (bq2 s) (br1 s) (br2 s) (br3 s) (br4 s).
  Definition stEv (s : bst) x := BS (bK s) (bCv s) x (bRP s) (bw1 s) (bw2 s) (bw3 s) (bw4 s) (bw5 s) (bw6 s) (bq1 s) (bq2 s) (br1 s) (br2 s) (br3 s) (br4 s).
  Definition stRP (s : bst) x := BS (bK s) (bCv s) (bEv s) x (bw1 s) (bw2 s) (bw3 s) (bw4 s) (bw5 s) (bw6 s) (bq1 s) (bq2 s) (br1 s) (br2 s) (br3 s) (br4 s).
  Definition stW12 (s : bst) x y := BS (bK s) (bCv s) (bEv s) (bRP s) x y (bw3 s) (bw4 s) (bw5 s) (bw6 s) (bq1 s) (bq2 s) (br1 s) (br2 s) (br3 s) (br4 s).
  Definition stW34 (s : bst) x y := BS (bK s) (bCv s) (bEv s) (bRP s) (bw1 s) (bw2 s) x y (bw5 s) (bw6 s) (bq1 s) (bq2 s) (br1 s) (br2 s) (br3 s) (br4 s).
  Definition stW56 (s : bst) x y := BS (bK s) (bCv s) (bEv s) (bRP s) (bw1 s) (bw2 s) (bw3 s) (bw4 s) x y (bq1 s) (bq2 s) (br1 s) (br2 s) (br3 s) (br4 s).
  Definition stQ1 (s : bst) x := BS (bK s) (bCv s) (bEv s) (bRP s) (bw1 s) (bw2 s) (bw3 s) (bw4 s) (bw5 s) (bw6 s) x (bq2 s) (br1 s) (br2 s) (br3 s) (br4 s).
  Definition stQ2 (s : bst) x := BS (bK s) (bCv s) (bEv s) (bRP s) (bw1 s) (bw2 s) (bw3 s) (bw4 s) (bw5 s) (bw6 s) (bq1 s) x (br1 s) (br2 s) (br3 s) (br4 s).
  Definition stR1 (s : bst) x := BS (bK s) (bCv s) (bEv s) (bRP s) (bw1 s) (bw2 s) (bw3 s) (bw4 s) (bw5 s) (bw6 s) (bq1 s) (bq2 s) x (br2 s) (br3 s) (br4 s).
  Definition stR2 (s : bst) x := BS (bK s) (bCv s) (bEv s) (bRP s) (bw1 s) (bw2 s) (bw3 s) (bw4 s) (bw5 s) (bw6 s) (bq1 s) (bq2 s) (br1 s) x (br3 s) (br4 s).
  Definition stR3 (s : bst) x := BS (bK s) (bCv s) (bEv s) (bRP s) (bw1 s) (bw2 s) (bw3 s) (bw4 s) (bw5 s) (bw6 s) (bq1 s) (bq2 s) (br1 s) (br2 s) x (br4 s).
  Definition stR4 (s : bst) x := BS (bK s) (bCv s) (bEv s) (bRP s) (bw1 s) (bw2 s) (bw3 s) (bw4 s) (bw5 s) (bw6 s) (bq1 s) (bq2 s) (br1 s) (br2 s) (br3 s) x.

  (** keyswitch.go:30-55 and evaluator.go:16-23 *)
  Definition newR b : list R := tab (length (bQ b ++ bM b)) (fun _ => R0).
  Definition newBst b : bst :=
    let z := Pol (tab (length (bQ b)) (fun _ => R0)) false in let w := newSwk (ppQ b) in
    BS (NewKeySwitcher (ppQ b)) (newCV b) (newCV b) (newSwk (ppR b)) w w w w w w z z (newR b) (newR b) (newR b) (newR b).

  (** basis_extension.go:49-63 into the buffer [old] *)
  Definition ModUpQtoRSt b (c : cvt) (pQ old : list R) : res (cvt * list R) :=
    let n := length (bQ b) in
    if (length pQ <? n)%nat then Panic else
    pm <- colmap n (fun x => ModUp (Qs (ppQ b)) (Ms b) (n - 1) (n - 1) (col pQ x)) ;;
    let c := CV (vQ c) (wr (n - 1) pm (vM c)) (vR c) in
    Ok (c, wr (levelR b) (firstn n pQ ++ firstn n (vM c)) old).
  (** basis_extension.go:83-97 into the buffer [old]; line 89 multiplies the previous content of polypoolQMul by 0 *)
  Definition RescaleSt b (c : cvt) (pQ old : list R) : res (cvt * list R) :=
    let n := length (bQ b) in
    if (length pQ <? n)%nat then Panic else
    let c := CV (wr (n - 1) (tab n (fun j => r_mont (Qi (ppQ b) j) (row pQ j) (mFormM b (Qi (ppQ b) j)))) (vQ c)) (vM c) (vR c) in
    let c := CV (vQ c) (wr (n - 1) (tab n (fun j => r_scal (Mi b j) 0 (row (vM c) j))) (vM c)) (vR c) in
    pm <- colmap n (fun x => ModDownQPtoP (Qs (ppQ b)) (Ms b) (n - 1) (n - 1) (col (vQ c) x) (col (vM c) x)) ;;
    let c := CV (vQ c) (wr (n - 1) pm (vM c)) (vR c) in
    pq <- colmap n (fun x => ModUp (Ms b) (Qs (ppQ b)) (n - 1) (n - 1) (col (vM c) x)) ;;
    let c := CV (wr (n - 1) pq (vQ c)) (vM c) (vR c) in
    Ok (c, wr (levelR b) (firstn n (vQ c) ++ firstn n (vM c)) old).
  (** basis_extension.go:66-80; the result is written over the first n rows of the output *)
  Definition QuantizeSt b (c : cvt) (pR : list R) : res (cvt * list R) :=
    let n := length (bQ b) in
    let c := CV (vQ c) (vM c) (wr (levelR b) (tab (n + n) (fun j => r_scal (Qi (ppR b) j) (bT b) (row pR j))) (vR c)) in
    let c := CV (vQ c) (vM c) (wr (levelR b) (tab (n + n) (fun j => intt (Qi (ppR b) j) (row (vR c) j))) (vR c)) in
    let c := CV (wr (n - 1) (firstn n (vR c)) (vQ c)) (wr (n - 1) (skipn n (vR c)) (vM c)) (vR c) in
    e <- colmap n (fun x => ModDownQPtoQ (Qs (ppQ b)) (Ms b) (n - 1) (n - 1) (col (vQ c) x) (col (vM c) x)) ;;
    Ok (c, e).
  Definition quSt b (s : bst) (pR : list R) : res (bst * list R) := '(c, e) <- QuantizeSt b (bCv s) pR ;; Ok (stCv s c, e).

  (** keyswitch.go:57-80: 2*beta digits go to swkRPPool and are copied, rows 0..levelQ and all rows of P, to the two destinations *)
  Definition DecBSt b level (s : bst) (aR : list R) (d1 d2 : swk N) : res (bst * swk N * swk N) :=
    let be := beta (ppQ b) level in
    rp <- updPre (2 * be) (fun i o => DsnInto (ppR b) level i aR o) (bRP s) ;;
    d1 <- updPre be (fun i o => r <- idx rp i ;; Ok (wrQP (ppQ b) level r o)) d1 ;;
    d2 <- updPre be (fun i o => r <- idx rp (i + be) ;; Ok (wrQP (ppQ b) level r o)) d2 ;;
    Ok (stRP s rp, d1, d2).
  (** keyswitch_hoisted.go:7-35: the accumulator is Pool[1] of the embedded KeySwitcher *)
  Definition macAcc b level (k d : polyQP N) (st : kst) : kst :=
    setE st (kP0 st) (wrQP (ppQ b) level (lvl3 (ppQ b) level r_mont_add k d (kP1 st)) (kP1 st)) (kInv st).
  Definition ExtBHSt b level (s : bst) (a1 a2 bg1 bg2 : swk N) : res (bst * list R) :=
    st <- rfold (fun st i =>
        k1 <- idx bg1 i ;; d1 <- idx a1 i ;; k2 <- idx bg2 i ;; d2 <- idx a2 i ;;
        Ok (macAcc b level k2 d2 (macSt (ppQ b) level i k1 d1 st))) (seq 0 (beta (ppQ b) level)) (bK s) ;;
    '(st, e) <- finSt (ppQ b) level st ;;
    Ok (stK s st, e).

  (** the digits of a component: the hoisted ones, or fresh ones in swkPool1 and swkPool2 *)
  Definition bdigSt b level (s : bst) (h : option (bhoisted N)) (op : ct) id : res (bst * swk N * swk N) :=
    match h with
    | None => p <- cgetL op id (levelR b) ;; '(s, d1, d2) <- DecBSt b level s (prows p) (bw1 s) (bw2 s) ;; Ok (stW12 s d1 d2, d1, d2)
    | Some m => '(d1, d2) <- bhget m id ;; Ok (s, d1, d2)
    end.
  (** keyswitch.go:83-111 or keyswitch_hoisted.go:7-35 *)
  Definition bExtOpSt b level (s : bst) (h : option (bhoisted N)) (op : ct) id (k1 k2 : swk N) : res (bst * list R) :=
    '(s, a1, a2) <- bdigSt b level s h op id ;;
    ExtBHSt b level s a1 a2 k1 k2.

  (** keyswitch.go:158-189, keyswitch_hoisted.go:86-134: one of the vectors x (swkPool3, swkPool4) and y (swkPool5, swkPool6) *)
  Definition bvecSt b level (g1 g2 : bst -> swk N) (set : bst -> swk N -> swk N -> bst) (s1 s2 : bRelinKey N -> swk N) (h : option (bhoisted N)) (op : ct) (rs : brlkset N) (l : list string) (s : bst) : res bst :=
    let be := beta (ppQ b) level in
    let mac key ds x := updPre be (fun i o => kk <- idx key i ;; d <- idx ds i ;; Ok (wrQP (ppQ b) level (lvl3 (ppQ b) level r_mont_add kk d o) o)) x in
    let mf x := updPre be (fun _ o => Ok (wrQP (ppQ b) level (lvl1 (ppQ b) level r_mform o) o)) x in
    s <- rfold (fun s id =>
        '(s, d1, d2) <- bdigSt b level s h op id ;;
        k <- brlk_get rs id ;;
        x1 <- mac (s1 k) d1 (g1 s) ;;
        x2 <- mac (s2 k) d2 (g2 s) ;;
        Ok (set s x1 x2)) l s ;;
    x1 <- mf (g1 s) ;;
    x2 <- mf (g2 s) ;;
    Ok (set s x1 x2).

  (** keyswitch.go:191-228, keyswitch_hoisted.go:136-173: every operation of ringR writes all rows of its destination *)
  Definition bprodSt b (o : order) (op0 op1 : ct) (ids0 ids1 : idset) (s : bst) (out : ct) : res (bst * ct) :=
    let pp := ppR b in let L := levelR b in
    a0 <- cgetL op0 id0 L ;;
    let s := stR1 s (wr L (lvlQ1 pp L ntt (prows a0)) (br1 s)) in
    b0 <- cgetL op1 id0 L ;;
    let s := stR2 s (wr L (lvlQ1 pp L ntt (prows b0)) (br2 s)) in
    let s := stR1 s (wr L (lvlQ1 pp L r_mform (br1 s)) (br1 s)) in
    let s := stR3 s (wr L (lvlQ2 pp L r_mont (br1 s) (br2 s)) (br3 s)) in
    '(s, z) <- quSt b s (br3 s) ;;
    out <- cwr out id0 z ;;
    let s := stR2 s (wr L (lvlQ1 pp L r_mform (br2 s)) (br2 s)) in
    '(s, out) <- rfold (fun '(s, c) id => if is_has ids1 id then Ok (s, c) else
             p <- cgetL op0 id L ;;
             let s := stR3 s (wr L (lvlQ1 pp L ntt (prows p)) (br3 s)) in
             let s := stR3 s (wr L (lvlQ2 pp L r_mont (br2 s) (br3 s)) (br3 s)) in
             '(s, z) <- quSt b s (br3 s) ;; c <- cwr c id z ;; Ok (s, c)) (o 4%nat (keys ids0)) (s, out) ;;
    '(s, out) <- rfold (fun '(s, c) id => if is_has ids0 id then Ok (s, c) else
             p <- cgetL op1 id L ;;
             let s := stR3 s (wr L (lvlQ1 pp L ntt (prows p)) (br3 s)) in
             let s := stR3 s (wr L (lvlQ2 pp L r_mont (br1 s) (br3 s)) (br3 s)) in
             '(s, z) <- quSt b s (br3 s) ;; c <- cwr c id z ;; Ok (s, c)) (o 5%nat (keys ids1)) (s, out) ;;
    rfold (fun '(s, c) id => if is_has ids0 id then
             p <- cgetL op1 id L ;;
             let s := stR3 s (wr L (lvlQ1 pp L ntt (prows p)) (br3 s)) in
             let s := stR3 s (wr L (lvlQ2 pp L r_mont (br1 s) (br3 s)) (br3 s)) in
             q <- cgetL op0 id L ;;
             let s := stR4 s (wr L (lvlQ1 pp L ntt (prows q)) (br4 s)) in
             let s := stR3 s (wr L (lvlQ3 pp L r_mont_add (br2 s) (br4 s) (br3 s)) (br3 s)) in
             '(s, z) <- quSt b s (br3 s) ;; c <- cwr c id z ;; Ok (s, c)
           else Ok (s, c)) (o 6%nat (keys ids1)) (s, out).

  (** keyswitch.go:230-234, keyswitch_hoisted.go:175-183 *)
  Definition bxSt b level (o : order) (h1 : option (bhoisted N)) (op1 : ct) (ids1 : idset) (s : bst) (out : ct) : res (bst * ct) :=
    rfold (fun '(s, c) id =>
        '(s, e) <- bExtOpSt b level s h1 op1 id (bw3 s) (bw4 s) ;;
        let s := stQ1 s (wrP level e (bq1 s)) in
        q <- cget c id ;; c <- cwr c id (lvlQ2 (ppQ b) level r_add (prows q) (prows (bq1 s))) ;; Ok (s, c)) (o 7%nat (keys ids1)) (s, out).
  (** an external product of the embedded KeySwitcher; the result goes to polyQPool2 *)
  Definition bExtSt b level (s : bst) (bg : swk N) : res bst :=
    '(st, e) <- ExtSt (ppQ b) level (bK s) (bq1 s) bg ;;
    let s := stK s st in Ok (stQ2 s (wrP level e (bq2 s))).
  Definition bExtHSt b level (s : bst) (bg : swk N) : res bst :=
    '(st, e) <- ExtHSt (ppQ b) level (bK s) (bw3 s) bg ;;
    let s := stK s st in Ok (stQ2 s (wrP level e (bq2 s))).
  (** keyswitch.go:239-250; keyswitch_hoisted.go:188-206, where the digits of polyQPool1 overwrite swkPool3 (the vector x1) *)
  Definition bvSt (hc : bool) b level (o : order) (crs : crsT N) (rs : brlkset N) (h0 : option (bhoisted N)) (op0 : ct) (ids0 : idset) (s : bst) (out : ct) : res (bst * ct) :=
    u <- crs_get crs (-1) ;;
    rfold (fun '(s, c) id =>
       k <- brlk_get rs id ;;
       '(s, w) <- bExtOpSt b level s h0 op0 id (bw5 s) (bw6 s) ;;
       let s := stQ1 s (wrP level w (bq1 s)) in
       s <- (if hc then '(st, dw) <- DecSt (ppQ b) level (bK s) (bq1 s) (bw3 s) ;; let s := stK s st in Ok (stW34 s dw (bw4 s)) else Ok s) ;;
       s <- (if hc then bExtHSt b level s (br_v k) else bExtSt b level s (br_v k)) ;;
       q0 <- cget c id0 ;;
       c <- cwr c id0 (lvlQ2 (ppQ b) level r_add (prows q0) (prows (bq2 s))) ;;
       s <- (if hc then bExtHSt b level s u else bExtSt b level s u) ;;
       q <- cget c id ;;
       c <- cwr c id (lvlQ2 (ppQ b) level r_add (prows q) (prows (bq2 s))) ;; Ok (s, c)) (o 8%nat (keys ids0)) (s, out).

  (** keyswitch.go:115-251 ([hc] = false) and keyswitch_hoisted.go:39-207 ([hc] = true) *)
  Definition bMulSt (hc : bool) b (o : order) (crs : crsT N) (s : bst) (op0 op1 : ct) (h0 h1 : option (bhoisted N)) (rs : brlkset N) (out : ct) : res (bst * ct) :=
    level <- ctLevel out ;;
    l0 <- ctLevel op0 ;;
    if (l0 <? level)%nat then Panic else
    ids0 <- IDSetOf (o 0%nat) op0 ;;
    ids1 <- IDSetOf (o 1%nat) op1 ;;
    x1 <- zeroSt (ppQ b) level (bw3 s) ;;
    x2 <- zeroSt (ppQ b) level (bw4 s) ;;
    y1 <- zeroSt (ppQ b) level (bw5 s) ;;
    y2 <- zeroSt (ppQ b) level (bw6 s) ;;
    let s := stW56 (stW34 s x1 x2) y1 y2 in
    s <- bvecSt b level bw3 bw4 stW34 br_d1 br_d2 h0 op0 rs (o 2%nat (keys ids0)) s ;;
    s <- bvecSt b level bw5 bw6 stW56 br_b1 br_b2 h1 op1 rs (o 3%nat (keys ids1)) s ;;
    '(s, out) <- bprodSt b o op0 op1 ids0 ids1 s out ;;
    '(s, out) <- bxSt b level o h1 op1 ids1 s out ;;
    bvSt hc b level o crs rs h0 op0 ids0 s out.

  (** evaluator.go:101-109, 125-133: the operands over R are the buffers of the key set; an identity without buffer is a nil dereference *)
  Definition liftSt (conv : cvt -> list R -> list R -> res (cvt * list R)) (l : list string) (c : ct) (s : bst) (pool : gomap string (list R)) : res (bst * gomap string (list R) * ct) :=
    rfold (fun '(s, pool, acc) id =>
        p <- cget c id ;;
        old <- match mget seq_dec pool id with Some x => Ok x | None => Panic end ;;
        '(e, r) <- conv (bEv s) (prows p) old ;;
        Ok (stEv s e, mset seq_dec pool id r, cset acc id (Pol r false))) l (s, pool, nil).
  (** evaluator.go:138-144 *)
  Definition bhoistSt b level (l : list string) (cR : ct) (s : bst) (hp : bhoisted N) : res (bst * bhoisted N) :=
    rfold (fun '(s, hp) id =>
        p <- cget cR id ;;
        '(d1, d2) <- bhget hp id ;;
        '(s, d1, d2) <- DecBSt b level s (prows p) d1 d2 ;;
        Ok (s, mset seq_dec hp id (d1, d2))) l (s, hp).

  (** ** an Evaluator and a RelinearizationKeySet over their lifetime.
      keys.go:12-22: the buffers PolyRPool1, PolyRPool2 and, for k = 0, 1, the pairs (HoistPool1[k], HoistPool2[k]) *)
  Record bworld := BW { bws : bst; bwk : brlkset N; bwR1 : gomap string (list R); bwR2 : gomap string (list R); bwH0 : bhoisted N; bwH1 : bhoisted N }.
  (** evaluator.go:16-23 with keys.go:36-54 *)
  Definition newBworld b : bworld := BW (newBst b) nil [(id0, newR b)] [(id0, newR b)] nil nil.

  (** evaluator.go:84-88, 118-150 *)
  Definition bMulRelinNewSt b (o : order) (crs : crsT N) (w : bworld) (c0 c1 : ct) : res (bworld * ct) :=
    out <- bNewBinary (ppQ b) o c0 c1 ;;
    '(s, R1, c0R) <- liftSt (ModUpQtoRSt b) (o 40%nat (keys c0)) c0 (bws w) (bwR1 w) ;;
    '(s, R2, c1R) <- liftSt (RescaleSt b) (o 41%nat (keys c1)) c1 s (bwR2 w) ;;
    ids0 <- IDSetOf (o 42%nat) c0 ;;
    ids1 <- IDSetOf (o 43%nat) c1 ;;
    l0 <- ctLevel c0 ;;
    '(s, H0) <- bhoistSt b l0 (o 44%nat (keys ids0)) c0R s (bwH0 w) ;;
    l1 <- ctLevel c1 ;;
    '(s, H1) <- bhoistSt b l1 (o 45%nat (keys ids1)) c1R s (bwH1 w) ;;
    '(s, c) <- bMulSt true b o crs s c0R c1R (Some H0) (Some H1) (bwk w) out ;;
    Ok (BW s (bwk w) R1 R2 H0 H1, c).

  (** evaluator.go:162-192 on the buffers of the embedded KeySwitcher *)
  Definition bRotateSt b (o : nat -> order) (crs : crsT N) (st : kst) (c : ct) (rotidx : Z) (rk : rotset N) (out : ct) : res (kst * ct) :=
    k <- rotNorm (N := N) rotidx ;;
    if k =? 0 then out <- Copy (o 0%nat 0%nat) out c ;; Ok (st, out) else
    tmp <- CopyNew (o 0%nat 0%nat) c ;;
    match mget Z.eq_dec crs k with
    | Some _ => RotateSt (ppQ b) (o 0%nat) crs st None tmp k rk out
    | None => rotChainSt (ppQ b) o crs (Z.to_nat k) 1 k rk st tmp out
    end.
  (** evaluator.go:154-158 *)
  Definition bRotateNewSt b (o : nat -> order) (crs : crsT N) (st : kst) (c : ct) (rotidx : Z) (rk : rotset N) : res (kst * ct) :=
    ids <- IDSetOf (o 0%nat 1%nat) c ;;
    bRotateSt b o crs st c rotidx rk (bNewCiphertext (ppQ b) (o 0%nat 2%nat) ids).
  (** evaluator.go:197-208 *)
  Definition bConjugateNewSt b (o : order) (crs : crsT N) (st : kst) (c : ct) (ck : conjset N) : res (kst * ct) :=
    ids <- IDSetOf (o 60%nat) c ;;
    tmp <- CopyNew (o 62%nat) c ;;
    ConjugateSt (ppQ b) o crs st tmp ck (bNewCiphertext (ppQ b) (o 61%nat) ids).

  (** the exported operations *)
  Inductive bevop :=
  | VAdd (c0 c1 : ct)
  | VSub (c0 c1 : ct)
  | VMul (c0 c1 : ct)
  | VRot (c : ct) (k : Z) (rk : rotset N)
  | VConj (c : ct) (ck : conjset N)
  | VAddKey (id : string) (key : bRelinKey N)
  | VDelKey (id : string).
  (** one call: the new state and the ciphertext returned *)
  Definition bcall b (crs : crsT N) (o : nat -> order) (w : bworld) (op : bevop) : res (bworld * option ct) :=
    match op with
    | VAdd c0 c1 => c <- bAddNew (ppQ b) (o 0%nat) c0 c1 ;; Ok (w, Some c)
    | VSub c0 c1 => c <- bSubNew (ppQ b) (o 0%nat) c0 c1 ;; Ok (w, Some c)
    | VMul c0 c1 => '(w, c) <- bMulRelinNewSt b (o 0%nat) crs w c0 c1 ;; Ok (w, Some c)
    | VRot c k rk => '(st, c) <- bRotateNewSt b o crs (bK (bws w)) c k rk ;; Ok (BW (stK (bws w) st) (bwk w) (bwR1 w) (bwR2 w) (bwH0 w) (bwH1 w), Some c)
    | VConj c ck => '(st, c) <- bConjugateNewSt b (o 0%nat) crs (bK (bws w)) c ck ;; Ok (BW (stK (bws w) st) (bwk w) (bwR1 w) (bwR2 w) (bwH0 w) (bwH1 w), Some c)
    (* keys.go:57-67 *)
    | VAddKey id key => Ok (BW (bws w) (mset seq_dec (bwk w) id key) (mset seq_dec (bwR1 w) id (newR b)) (mset seq_dec (bwR2 w) id (newR b))
                              (mset seq_dec (bwH0 w) id (newSwk (ppQ b), newSwk (ppQ b))) (mset seq_dec (bwH1 w) id (newSwk (ppQ b), newSwk (ppQ b))), None)
    (* keys.go:70-72 *)
    | VDelKey id => Ok (BW (bws w) (mdel seq_dec (bwk w) id) (bwR1 w) (bwR2 w) (bwH0 w) (bwH1 w), None)
    end.
End Model.
Arguments cvt : clear implicits.
Arguments bst : clear implicits.
Arguments bworld : clear implicits.
Arguments bevop : clear implicits.
