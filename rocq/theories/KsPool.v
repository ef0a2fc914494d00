(** Model of mkrlwe/keyswitch.go and keyswitch_hoisted.go with the scratch buffers of the KeySwitcher as explicit state,
    and of the decomposition buffers that RelinearizationKeySet carries (keys.go:54-58, 176-182).
    Every buffer keeps its old contents wherever the code does not write it: a Lvl operation writes rows 0..level of its destination only.
    KeySwitchModel.v is the version where scratch values are local; KsPoolProofs.v proves that both return the same results. *)
From Flocq Require Import Core BinarySingleNaN.
From Verif Require Import Base IdSetModel KeySetModel NumTheory Negacyclic Ntt Word FloatModel BasisExt BasisExtProofs Rows RlweModel KeyGenModel Galois CtModel KeySwitchModel CkksModel.
Open Scope Z_scope.

Section Model.
  Context {N : nat}.
  Notation R := (R N).
  Notation ct := (ctT N).
  Implicit Types (pp : rparams).

  (** keyswitch.go:8-16: Pool[0], Pool[1] and PoolInvNTT of the embedded rlwe.KeySwitcher, polyQPool, swkPool1..3
      (the base converter's own buffer is written before it is read inside one call, basis_extension.go:192-232) *)
  Record kst := KS { kP0 : polyQP N; kP1 : polyQP N; kInv : list R; kq0 : poly N; kq1 : poly N; kq2 : poly N; ks1 : swk N; ks2 : swk N; ks3 : swk N }.
  Definition setE (st : kst) p0 p1 r : kst := KS p0 p1 r (kq0 st) (kq1 st) (kq2 st) (ks1 st) (ks2 st) (ks3 st).
  Definition setq0 (st : kst) q : kst := KS (kP0 st) (kP1 st) (kInv st) q (kq1 st) (kq2 st) (ks1 st) (ks2 st) (ks3 st).
  Definition setq1 (st : kst) q : kst := KS (kP0 st) (kP1 st) (kInv st) (kq0 st) q (kq2 st) (ks1 st) (ks2 st) (ks3 st).
  Definition setq2 (st : kst) q : kst := KS (kP0 st) (kP1 st) (kInv st) (kq0 st) (kq1 st) q (ks1 st) (ks2 st) (ks3 st).
  Definition sets1 (st : kst) s : kst := KS (kP0 st) (kP1 st) (kInv st) (kq0 st) (kq1 st) (kq2 st) s (ks2 st) (ks3 st).
  Definition sets2 (st : kst) s : kst := KS (kP0 st) (kP1 st) (kInv st) (kq0 st) (kq1 st) (kq2 st) (ks1 st) s (ks3 st).
  Definition sets3 (st : kst) s : kst := KS (kP0 st) (kP1 st) (kInv st) (kq0 st) (kq1 st) (kq2 st) (ks1 st) (ks2 st) s.

  (** fresh zero buffers: ring.NewPoly, rlwe NewPolyQP, keys.go NewSwitchingKey *)
  Definition newQP pp : polyQP N := QP (tab (length (Qm pp)) (fun _ => R0)) (tab (length (Pm pp)) (fun _ => R0)).
  Definition newSwk pp : swk N := tab (beta pp (maxLevel pp)) (fun _ => newQP pp).
  (** keyswitch.go:33-47 *)
  Definition NewKeySwitcher pp : kst :=
    let z := tab (length (Qm pp)) (fun _ => R0) in
    KS (newQP pp) (newQP pp) z (Pol z false) (Pol z false) (Pol z false) (newSwk pp) (newSwk pp) (newSwk pp).

  (** a Lvl operation writing rows 0..level of a buffer; the domain flag stays *)
  Definition wr (level : nat) (new old : list R) : list R := tab (length old) (fun j => if (j <=? level)%nat then row new j else row old j).
  Definition wrP (level : nat) (new : list R) (old : poly N) : poly N := Pol (wr level new (prows old)) (pntt old).
  Definition wrQP pp (level : nat) (new old : polyQP N) : polyQP N := QP (wr level (qpQ new) (qpQ old)) (wr (levelP pp) (qpP new) (qpP old)).
  (** for i := 0; i < n; i++ with a body that writes entry i of the buffer l only *)
  Definition updPre (n : nat) (f : nat -> polyQP N -> res (polyQP N)) (l : swk N) : res (swk N) :=
    new <- rmapM (fun i => o <- idx l i ;; f i o) (seq 0 n) ;; Ok (new ++ skipn n l).

  (** keyswitch.go:54-60, 85-92: PoolInvNTT receives the coefficient form when the input is flagged *)
  Definition invSt pp level (st : kst) (a : poly N) : kst * list R :=
    if pntt a then let r := wr level (lvlQ1 pp level intt (prows a)) (kInv st) in (setE st (kP0 st) (kP1 st) r, r) else (st, prows a).
  (** keyswitch.go:21-31 into a buffer: DecomposeAndSplit writes every row up to levelQ and levelP (basis_extension.go:443-535) and reads none of them *)
  Definition DsnInto pp level i (a : list R) (dst : polyQP N) : res (polyQP N) := d <- DecomposeSingleNTT pp level i a ;; Ok (wrQP pp level d dst).
  (** keyswitch.go:49-73 *)
  Definition DecSt pp level (st : kst) (a : poly N) (dst : swk N) : res (kst * swk N) :=
    let '(st, ai) := invSt pp level st a in
    d <- updPre (beta pp level) (fun i o => DsnInto pp level i ai o) dst ;; Ok (st, d).
  (** keyswitch.go:111-117, keyswitch_hoisted.go:35-39 *)
  Definition finSt pp level (st : kst) : res (kst * list R) :=
    let c1 := wrQP pp level (lvl1 pp level intt (kP1 st)) (kP1 st) in
    e <- colmap (S level) (fun x => ModDownQPtoQ (Qs pp) (Ps pp) level (levelP pp) (col (qpQ c1) x) (col (qpP c1) x)) ;;
    Ok (setE st (kP0 st) c1 (kInv st), e).
  (** keyswitch.go:103-107, keyswitch_hoisted.go:27-31: the accumulator is Pool[1] *)
  Definition macSt pp level i (k d : polyQP N) (st : kst) : kst :=
    setE st (kP0 st) (wrQP pp level (if (i =? 0)%nat then lvl2 pp level r_mont k d else lvl3 pp level r_mont_add k d (kP1 st)) (kP1 st)) (kInv st).
  (** keyswitch.go:79-118 *)
  Definition ExtSt pp level (st : kst) (a : poly N) (bg : swk N) : res (kst * list R) :=
    let '(st, ai) := invSt pp level st a in
    st <- rfold (fun st i =>
            c0 <- DsnInto pp level i ai (kP0 st) ;;
            k <- idx bg i ;;
            Ok (macSt pp level i k c0 (setE st c0 (kP1 st) (kInv st)))) (seq 0 (beta pp level)) st ;;
    finSt pp level st.
  (** keyswitch_hoisted.go:10-40 *)
  Definition ExtHSt pp level (st : kst) (ah bg : swk N) : res (kst * list R) :=
    st <- rfold (fun st i => k <- idx bg i ;; d <- idx ah i ;; Ok (macSt pp level i k d st)) (seq 0 (beta pp level)) st ;;
    finSt pp level st.
  (** the choice between the two, keyswitch_hoisted.go:148-152, 166-170 *)
  Definition ExtOpSt pp level (st : kst) (h : option (hoisted N)) (op : ct) id (key : swk N) : res (kst * list R) :=
    match h with
    | None => p <- cgetL op id level ;; ExtSt pp level st p key
    | Some m => d <- hget m id ;; ExtHSt pp level st d key
    end.

  (** keyswitch.go:165, keyswitch_hoisted.go:74, 103: the digits, in swkPool3 unless hoisted *)
  Definition digSt pp level (st : kst) (h : option (hoisted N)) (op : ct) id : res (kst * swk N) :=
    match h with
    | None => p <- cgetL op id level ;; '(st, d) <- DecSt pp level st p (ks3 st) ;; Ok (sets3 st d, d)
    | Some m => d <- hget m id ;; Ok (st, d)
    end.
  (** keyswitch.go:150-188, keyswitch_hoisted.go:72-117: one of the vectors x, y; [get]/[set] select swkPool1 or swkPool2 *)
  Definition vecSt pp level (get : kst -> swk N) (set : kst -> swk N -> kst) (sel : relinKey N -> swk N) (h : option (hoisted N)) (op : ct) (rs : rlkset N) (l : list string) (st : kst) : res kst :=
    st <- rfold (fun st id =>
            '(st, ds) <- digSt pp level st h op id ;;
            k <- rlk_get rs id ;;
            x <- updPre (beta pp level) (fun i o => kk <- idx (sel k) i ;; d <- idx ds i ;; Ok (wrQP pp level (lvl3 pp level r_mont_add kk d o) o)) (get st) ;;
            Ok (set st x)) l st ;;
    x <- updPre (beta pp level) (fun _ o => Ok (wrQP pp level (lvl1 pp level r_mform o) o)) (get st) ;;
    Ok (set st x).
  (** keyswitch.go:141-148: Zero() clears all rows of the first beta entries *)
  Definition zeroSt pp level (s : swk N) : res (swk N) :=
    updPre (beta pp level) (fun _ o => Ok (QP (tab (length (qpQ o)) (fun _ => R0)) (tab (length (qpP o)) (fun _ => R0)))) s.

  (** keyswitch.go:190-215 *)
  Definition prodSt pp level (o : order) (op0 op1 : ct) (ids0 ids1 : idset) (st : kst) (out : ct) : res (kst * ct) :=
    a0 <- cgetL op0 id0 level ;;
    let st := setq0 st (wrP level (lvlQ1 pp level ntt (prows a0)) (kq0 st)) in
    b0 <- cgetL op1 id0 level ;;
    let st := setq1 st (wrP level (lvlQ1 pp level ntt (prows b0)) (kq1 st)) in
    let st := setq0 st (wrP level (lvlQ1 pp level r_mform (prows (kq0 st))) (kq0 st)) in
    out <- cwr out id0 (lvlQ2 pp level r_mont (prows (kq0 st)) (prows (kq1 st))) ;;
    let st := setq1 st (wrP level (lvlQ1 pp level r_mform (prows (kq1 st))) (kq1 st)) in
    '(st, out) <- rfold (fun '(st, c) id =>
        p <- cgetL op0 id level ;;
        let st := setq2 st (wrP level (lvlQ1 pp level ntt (prows p)) (kq2 st)) in
        c <- cwr c id (lvlQ2 pp level r_mont (prows (kq1 st)) (prows (kq2 st))) ;; Ok (st, c)) (o 4%nat (keys ids0)) (st, out) ;;
    '(st, out) <- rfold (fun '(st, c) id =>
        p <- cgetL op1 id level ;;
        let st := setq2 st (wrP level (lvlQ1 pp level ntt (prows p)) (kq2 st)) in
        c <- (if is_has ids0 id
              then q <- cget c id ;; cwr c id (lvlQ3 pp level r_mont_add (prows (kq0 st)) (prows (kq2 st)) (prows q))
              else cwr c id (lvlQ2 pp level r_mont (prows (kq0 st)) (prows (kq2 st)))) ;; Ok (st, c)) (o 5%nat (keys ids1)) (st, out) ;;
    out <- rfold (fun c id => q <- cget c id ;; cwr c id (lvlQ1 pp level intt (prows q))) (o 6%nat (keys out)) out ;;
    Ok (st, out).
  (** keyswitch.go:217-221, keyswitch_hoisted.go:146-154: x is swkPool1 *)
  Definition xSt pp level (o : order) (h1 : option (hoisted N)) (op1 : ct) (ids1 : idset) (st : kst) (out : ct) : res (kst * ct) :=
    rfold (fun '(st, c) id =>
        '(st, e) <- ExtOpSt pp level st h1 op1 id (ks1 st) ;;
        let st := setq0 st (wrP level e (kq0 st)) in
        q <- cget c id ;; c <- cwr c id (lvlQ2 pp level r_add (prows q) (prows (kq0 st))) ;; Ok (st, c)) (o 7%nat (keys ids1)) (st, out).
  (** keyswitch.go:225-235: y is swkPool2; the inner product is in polyQPool[0] *)
  Definition vSt pp level (o : order) (crs : crsT N) (rs : rlkset N) (op0 : ct) (ids0 : idset) (st : kst) (out : ct) : res (kst * ct) :=
    rfold (fun '(st, c) id =>
        k <- rlk_get rs id ;;
        '(st, w) <- ExtOpSt pp level st None op0 id (ks2 st) ;;
        let st := setq0 st (wrP level w (kq0 st)) in
        '(st, ev) <- ExtSt pp level st (kq0 st) (rlk_v k) ;;
        let st := setq1 st (wrP level ev (kq1 st)) in
        q0 <- cget c id0 ;;
        c <- cwr c id0 (lvlQ2 pp level r_add (prows q0) (prows (kq1 st))) ;;
        u <- crs_get crs (-1) ;;
        '(st, eu) <- ExtSt pp level st (kq0 st) u ;;
        let st := setq2 st (wrP level eu (kq2 st)) in
        q <- cget c id ;;
        c <- cwr c id (lvlQ2 pp level r_add (prows q) (prows (kq2 st))) ;; Ok (st, c)) (o 8%nat (keys ids0)) (st, out).
  (** keyswitch_hoisted.go:159-178: the digits of polyQPool[0] go to swkPool3 *)
  Definition vhSt pp level (o : order) (crs : crsT N) (rs : rlkset N) (h0 : option (hoisted N)) (op0 : ct) (ids0 : idset) (st : kst) (out : ct) : res (kst * ct) :=
    rfold (fun '(st, c) id =>
        k <- rlk_get rs id ;;
        '(st, w) <- ExtOpSt pp level st h0 op0 id (ks2 st) ;;
        let st := setq0 st (wrP level w (kq0 st)) in
        '(st, dw) <- DecSt pp level st (kq0 st) (ks3 st) ;;
        let st := sets3 st dw in
        '(st, ev) <- ExtHSt pp level st (ks3 st) (rlk_v k) ;;
        let st := setq1 st (wrP level ev (kq1 st)) in
        q0 <- cget c id0 ;;
        c <- cwr c id0 (lvlQ2 pp level r_add (prows q0) (prows (kq1 st))) ;;
        u <- crs_get crs (-1) ;;
        '(st, eu) <- ExtHSt pp level st (ks3 st) u ;;
        let st := setq2 st (wrP level eu (kq2 st)) in
        q <- cget c id ;;
        c <- cwr c id (lvlQ2 pp level r_add (prows q) (prows (kq2 st))) ;; Ok (st, c)) (o 8%nat (keys ids0)) (st, out).

  (** keyswitch.go:122-236 ([hoistedCall] = false) and keyswitch_hoisted.go:44-179 ([hoistedCall] = true) *)
  Definition MulSt (hoistedCall : bool) pp (o : order) (crs : crsT N) (st : kst) (op0 op1 : ct) (h0 h1 : option (hoisted N)) (rs : rlkset N) (out : ct) : res (kst * ct) :=
    level <- ctLevel out ;;
    l0 <- ctLevel op0 ;;
    if (l0 <? level)%nat then Panic else
    ids0 <- IDSetOf (o 0%nat) op0 ;;
    ids1 <- IDSetOf (o 1%nat) op1 ;;
    x <- zeroSt pp level (ks1 st) ;;
    y <- zeroSt pp level (ks2 st) ;;
    let st := sets2 (sets1 st x) y in
    st <- vecSt pp level ks1 sets1 rlk_d h0 op0 rs (o 2%nat (keys ids0)) st ;;
    st <- vecSt pp level ks2 sets2 rlk_b h1 op1 rs (o 3%nat (keys ids1)) st ;;
    '(st, out) <- prodSt pp level o op0 op1 ids0 ids1 st out ;;
    '(st, out) <- xSt pp level o h1 op1 ids1 st out ;;
    if hoistedCall then vhSt pp level o crs rs h0 op0 ids0 st out else vSt pp level o crs rs op0 ids0 st out.
  Definition MulAndRelinSt pp o crs st op0 op1 rs out := MulSt false pp o crs st op0 op1 None None rs out.
  Definition MulAndRelinHoistedSt pp o crs st op0 op1 h0 h1 rs out := MulSt true pp o crs st op0 op1 h0 h1 rs out.

  (** keyswitch.go:267-296: the permuted rows go to polyQPool[0], over its previous contents, and are copied back with its flag *)
  Definition permSt pp level (g : Z) (st : kst) (q : poly N) : kst * poly N :=
    let st := setq0 st (Pol (tab (length (prows (kq0 st))) (fun j => if (j <=? level)%nat then perm_row g (Qi pp j) (row (prows q) j) (tab N (co (row (prows (kq0 st)) j))) else row (prows (kq0 st)) j)) (pntt (kq0 st))) in
    (st, polyCopy q (kq0 st)).
  (** keyswitch.go:240-298, keyswitch_hoisted.go:183-247 *)
  Definition RotateSt pp (o : order) (crs : crsT N) (st : kst) (h : option (hoisted N)) (ctIn : ct) (rotidx : Z) (rk : rotset N) (out : ct) : res (kst * ct) :=
    level <- ctLevel out ;;
    ids <- IDSetOf (o 0%nat) ctIn ;;
    lin <- ctLevel ctIn ;;
    if (lin <? level)%nat then Panic else
    k <- norm_rot N rotidx ;;
    p0 <- cget ctIn id0 ;;
    q0 <- cget out id0 ;;
    let out := cset out id0 (polyCopy q0 p0) in
    '(st, out) <- rfold (fun '(st, c) id =>
       key <- rk_get rk id k ;;
       '(st, e) <- ExtOpSt pp level st h ctIn id (rtk_val key) ;;
       let st := setq0 st (wrP level e (kq0 st)) in
       q0 <- cget c id0 ;;
       c <- cwr c id0 (lvlQ2 pp level r_add (prows q0) (prows (kq0 st))) ;;
       a <- crs_get crs k ;;
       '(st, ea) <- ExtOpSt pp level st h ctIn id a ;;
       c <- cwr c id ea ;; Ok (st, c)) (o 1%nat (keys ids)) (st, out) ;;
    rfold (fun '(st, c) id => q <- cget c id ;; let '(st, q') := permSt pp level (galEl N k) st q in Ok (st, cset c id q')) (o 2%nat (keys ctIn)) (st, out).
  (** keyswitch.go:302-332 *)
  Definition ConjugateSt pp (o : order) (crs : crsT N) (st : kst) (ctIn : ct) (ck : conjset N) (out : ct) : res (kst * ct) :=
    level <- ctLevel out ;;
    ids <- IDSetOf (o 0%nat) ctIn ;;
    lin <- ctLevel ctIn ;;
    if (lin <? level)%nat then Panic else
    out <- rfold (fun c id =>
       p <- cgetL ctIn id (maxLevel pp) ;;
       _ <- cgetL c id (maxLevel pp) ;;
       cwr c id (permRows pp (maxLevel pp) (conjEl N) (prows p))) (o 1%nat (keys ctIn)) out ;;
    '(st, out) <- rfold (fun '(st, c) id =>
       key <- ks_get ck id ;;
       '(st, e) <- ExtOpSt pp level st None c id (cjk_val key) ;;
       let st := setq0 st (wrP level e (kq0 st)) in
       q0 <- cget c id0 ;;
       c <- cwr c id0 (lvlQ2 pp level r_add (prows q0) (prows (kq0 st))) ;; Ok (st, c)) (o 2%nat (keys ids)) (st, out) ;;
    rfold (fun '(st, c) id =>
       a <- crs_get crs (-2) ;;
       '(st, e) <- ExtOpSt pp level st None c id a ;;
       let st := setq0 st (wrP level e (kq0 st)) in
       q <- cget c id ;;
       Ok (st, cset c id (polyCopy q (kq0 st)))) (o 3%nat (keys ids)) (st, out).
End Model.
Arguments kst : clear implicits.
