(** Model of mkrlwe/keyswitch.go (MulAndRelin, Rotate, Conjugate) and mkrlwe/keyswitch_hoisted.go.
    The scratch polynomials of the KeySwitcher are local values here (KsPool.v has the version with shared scratch state).
    The components of the output ciphertext all have the same level, as NewCiphertext creates them.
    Every loop over a Go map takes its order from [o]; loop number n uses [o n]. *)
From Verif Require Import Base IdSetModel KeySetModel NumTheory Negacyclic Ntt Word BasisExt Rows RlweModel KeyGenModel Galois CtModel.
Open Scope Z_scope.

Section Model.
  Context {N : nat}.
  Notation R := (R N).
  Notation ct := (ctT N).
  Implicit Types (pp : rparams).

  (** elements.go:17-19 HoistedCiphertext *)
  Definition hoisted := gomap string (swk N).
  (** keys.go:54-58 (the hoisting buffers are in KsPool.v) *)
  Definition rlkset := gomap string (relinKey N).
  Definition rotset := gomap string (gomap Z (rotKey N)).
  Definition conjset := gomap string (conjKey N).

  (** ct.Value[id] read by a Lvl operation: index out of range when the polynomial has too few rows *)
  Definition cgetL (c : ct) id level : res (poly N) := p <- cget c id ;; if (length (prows p) <=? level)%nat then Panic else Ok p.
  (** a Lvl operation writing ct.Value[id]; the domain flag is kept *)
  Definition cwr (c : ct) id (rows : list R) : res ct := p <- cget c id ;; Ok (cset c id (Pol rows (pntt p))).
  (** rlkSet.Value[id] dereferenced *)
  Definition rlk_get (rs : rlkset) id : res (relinKey N) := match mget seq_dec rs id with Some k => Ok k | None => Panic end.
  Definition hget (h : hoisted) id : res (swk N) := match mget seq_dec h id with Some d => Ok d | None => Panic end.

  (** the digits of op.Value[id]: keyswitch.go:165, 179 (plain) and keyswitch_hoisted.go:80-92, 101-112 *)
  Definition hdig pp level (h : option hoisted) (op : ct) id : res (swk N) :=
    match h with None => p <- cgetL op id level ;; Decompose pp level p | Some m => hget m id end.
  (** keyswitch.go:218-219 (plain), keyswitch_hoisted.go:148-152, 166-170, 211, 214 *)
  Definition ExtOp pp level (h : option hoisted) (op : ct) id (key : swk N) : res (list R) :=
    match h with
    | None => p <- cgetL op id level ;; ExternalProduct pp level p key
    | Some m => d <- hget m id ;; ExternalProductHoisted pp level d key
    end.

  Definition zeroQP pp level : polyQP N := QP (tab (S level) (fun _ => R0)) (tab (length (Pm pp)) (fun _ => R0)).
  (** keyswitch.go:167-169, 181-183 *)
  Definition macAdd pp level (key ds acc : swk N) : res (swk N) :=
    rmapM (fun i => k <- idx key i ;; d <- idx ds i ;; x <- idx acc i ;; Ok (lvl3 pp level r_mont_add k d x)) (seq 0 (beta pp level)).
  (** keyswitch.go:150-175 (sel = Value[1], the d vector) and 177-188 (sel = Value[0], the b vector);
      keyswitch_hoisted.go:72-98, 100-117 *)
  Definition genVec pp level (sel : relinKey N -> swk N) (h : option hoisted) (op : ct) (rs : rlkset) (l : list string) : res (swk N) :=
    x <- rfold (fun acc id => ds <- hdig pp level h op id ;; k <- rlk_get rs id ;; macAdd pp level (sel k) ds acc)
               l (tab (beta pp level) (fun _ => zeroQP pp level)) ;;
    Ok (map (lvl1 pp level r_mform) x).

  (** keyswitch.go:190-215, keyswitch_hoisted.go:119-144: the products of the components *)
  Definition prodStage pp level (o : order) (op0 op1 : ct) (ids0 ids1 : idset) (out : ct) : res ct :=
    a0 <- cgetL op0 id0 level ;;
    b0 <- cgetL op1 id0 level ;;
    let aN := lvlQ1 pp level r_mform (lvlQ1 pp level ntt (prows a0)) in
    let bN := lvlQ1 pp level ntt (prows b0) in
    out <- cwr out id0 (lvlQ2 pp level r_mont aN bN) ;;
    let bM := lvlQ1 pp level r_mform bN in
    out <- rfold (fun c id => p <- cgetL op0 id level ;; cwr c id (lvlQ2 pp level r_mont bM (lvlQ1 pp level ntt (prows p)))) (o 4%nat (keys ids0)) out ;;
    out <- rfold (fun c id =>
             p <- cgetL op1 id level ;;
             if is_has ids0 id
             then q <- cget c id ;; cwr c id (lvlQ3 pp level r_mont_add aN (lvlQ1 pp level ntt (prows p)) (prows q))
             else cwr c id (lvlQ2 pp level r_mont aN (lvlQ1 pp level ntt (prows p)))) (o 5%nat (keys ids1)) out ;;
    rfold (fun c id => q <- cget c id ;; cwr c id (lvlQ1 pp level intt (prows q))) (o 6%nat (keys out)) out.

  (** keyswitch.go:217-221, keyswitch_hoisted.go:146-154 *)
  Definition xStage pp level (o : order) (h1 : option hoisted) (op1 : ct) (ids1 : idset) (x : swk N) (out : ct) : res ct :=
    rfold (fun c id => e <- ExtOp pp level h1 op1 id x ;; q <- cget c id ;; cwr c id (lvlQ2 pp level r_add (prows q) e)) (o 7%nat (keys ids1)) out.

  (** keyswitch.go:225-235 *)
  Definition vStage pp level (o : order) (crs : crsT N) (rs : rlkset) (op0 : ct) (ids0 : idset) (y : swk N) (out : ct) : res ct :=
    rfold (fun c id =>
       k <- rlk_get rs id ;;
       w <- ExtOp pp level None op0 id y ;;
       ev <- ExternalProduct pp level (Pol w false) (rlk_v k) ;;
       q0 <- cget c id0 ;;
       c <- cwr c id0 (lvlQ2 pp level r_add (prows q0) ev) ;;
       u <- crs_get crs (-1) ;;
       eu <- ExternalProduct pp level (Pol w false) u ;;
       q <- cget c id ;;
       cwr c id (lvlQ2 pp level r_add (prows q) eu)) (o 8%nat (keys ids0)) out.
  (** keyswitch_hoisted.go:159-178: the inner product is decomposed once *)
  Definition vStageH pp level (o : order) (crs : crsT N) (rs : rlkset) (h0 : option hoisted) (op0 : ct) (ids0 : idset) (y : swk N) (out : ct) : res ct :=
    rfold (fun c id =>
       k <- rlk_get rs id ;;
       w <- ExtOp pp level h0 op0 id y ;;
       dw <- Decompose pp level (Pol w false) ;;
       ev <- ExternalProductHoisted pp level dw (rlk_v k) ;;
       q0 <- cget c id0 ;;
       c <- cwr c id0 (lvlQ2 pp level r_add (prows q0) ev) ;;
       u <- crs_get crs (-1) ;;
       eu <- ExternalProductHoisted pp level dw u ;;
       q <- cget c id ;;
       cwr c id (lvlQ2 pp level r_add (prows q) eu)) (o 8%nat (keys ids0)) out.

  (** keyswitch.go:122-236.  The level of op1 is not compared by the code; reading a missing row panics. *)
  Definition MulAndRelin pp (o : order) (crs : crsT N) (op0 op1 : ct) (rs : rlkset) (out : ct) : res ct :=
    level <- ctLevel out ;;
    l0 <- ctLevel op0 ;;
    if (l0 <? level)%nat then Panic else
    ids0 <- IDSetOf (o 0%nat) op0 ;;
    ids1 <- IDSetOf (o 1%nat) op1 ;;
    x <- genVec pp level rlk_d None op0 rs (o 2%nat (keys ids0)) ;;
    y <- genVec pp level rlk_b None op1 rs (o 3%nat (keys ids1)) ;;
    out <- prodStage pp level o op0 op1 ids0 ids1 out ;;
    out <- xStage pp level o None op1 ids1 x out ;;
    vStage pp level o crs rs op0 ids0 y out.

  (** keyswitch_hoisted.go:44-179 *)
  Definition MulAndRelinHoisted pp (o : order) (crs : crsT N) (op0 op1 : ct) (h0 h1 : option hoisted) (rs : rlkset) (out : ct) : res ct :=
    level <- ctLevel out ;;
    l0 <- ctLevel op0 ;;
    if (l0 <? level)%nat then Panic else
    ids0 <- IDSetOf (o 0%nat) op0 ;;
    ids1 <- IDSetOf (o 1%nat) op1 ;;
    x <- genVec pp level rlk_d h0 op0 rs (o 2%nat (keys ids0)) ;;
    y <- genVec pp level rlk_b h1 op1 rs (o 3%nat (keys ids1)) ;;
    out <- prodStage pp level o op0 op1 ids0 ids1 out ;;
    out <- xStage pp level o h1 op1 ids1 x out ;;
    vStageH pp level o crs rs h0 op0 ids0 y out.

  (** keyswitch.go:267-296: the permutation of one component; rows up to the level, the flag comes from the scratch polynomial (false) *)
  Definition permRows pp level (g : Z) (a : list R) : list R :=
    tab (S level) (fun j => perm_row g (Qi pp j) (row a j) (repeat 0 N)).

  (** keyswitch.go:240-298 (h = None) and keyswitch_hoisted.go:183-247 (h = Some ..) *)
  Definition RotateGen pp (o : order) (crs : crsT N) (h : option hoisted) (ctIn : ct) (rotidx : Z) (rk : rotset) (out : ct) : res ct :=
    level <- ctLevel out ;;
    ids <- IDSetOf (o 0%nat) ctIn ;;
    lin <- ctLevel ctIn ;;
    if (lin <? level)%nat then Panic else
    k <- norm_rot N rotidx ;;
    p0 <- cget ctIn id0 ;;
    q0 <- cget out id0 ;;
    let out := cset out id0 (polyCopy q0 p0) in
    out <- rfold (fun c id =>
       key <- rk_get rk id k ;;
       e <- ExtOp pp level h ctIn id (rtk_val key) ;;
       q0 <- cget c id0 ;;
       c <- cwr c id0 (lvlQ2 pp level r_add (prows q0) e) ;;
       a <- crs_get crs k ;;
       ea <- ExtOp pp level h ctIn id a ;;
       cwr c id ea) (o 1%nat (keys ids)) out ;;
    rfold (fun c id => q <- cget c id ;; Ok (cset c id (polyCopy q (Pol (permRows pp level (galEl N k) (prows q)) false)))) (o 2%nat (keys ctIn)) out.
  Definition Rotate pp o crs ctIn rotidx rk out := RotateGen pp o crs None ctIn rotidx rk out.
  Definition RotateHoisted pp o crs ctIn rotidx h rk out := RotateGen pp o crs (Some h) ctIn rotidx rk out.

  (** keyswitch.go:302-332.  ring.Permute (lattigo) runs over all moduli of the ring and indexes the rows of both polynomials. *)
  Definition Conjugate pp (o : order) (crs : crsT N) (ctIn : ct) (ck : conjset) (out : ct) : res ct :=
    level <- ctLevel out ;;
    ids <- IDSetOf (o 0%nat) ctIn ;;
    lin <- ctLevel ctIn ;;
    if (lin <? level)%nat then Panic else
    out <- rfold (fun c id =>
       p <- cgetL ctIn id (maxLevel pp) ;;
       _ <- cgetL c id (maxLevel pp) ;;
       cwr c id (permRows pp (maxLevel pp) (conjEl N) (prows p))) (o 1%nat (keys ctIn)) out ;;
    out <- rfold (fun c id =>
       key <- ks_get ck id ;;
       e <- ExtOp pp level None c id (cjk_val key) ;;
       q0 <- cget c id0 ;;
       cwr c id0 (lvlQ2 pp level r_add (prows q0) e)) (o 2%nat (keys ids)) out ;;
    rfold (fun c id =>
       a <- crs_get crs (-2) ;;
       e <- ExtOp pp level None c id a ;;
       q <- cget c id ;;
       Ok (cset c id (polyCopy q (Pol e false)))) (o 3%nat (keys ids)) out.
End Model.
Arguments hoisted : clear implicits.
Arguments rlkset : clear implicits.
Arguments rotset : clear implicits.
Arguments conjset : clear implicits.
