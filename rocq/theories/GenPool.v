(** Model of the mkrlwe and mkbfv KeyGenerator and of the mkrlwe Encryptor with what they keep between calls: the scratch polynomials
    poolQ and poolQP (mkrlwe/keygen.go:14-21), poolQ[0] (mkrlwe/encryptor.go:8-21) and the position of their samplers.
    A sampler is a stream: its n-th call writes the rows [om n] (a dependency; nothing is said about the values here).
    KeyGenModel.v, BfvMulModel.v and CtModel.v are the versions that get the sampled rows as arguments and whose scratch values are local;
    PropsGen.v proves that both return the same results.
    A key that the code allocates itself (NewRelinearizationKey, ...) is built entry by entry; a key passed by the caller (GenSwitchingKey) keeps
    its old content wherever it is not written. *)
From Verif Require Import Base IdSetModel KeySetModel NumTheory Negacyclic Ntt Word FloatModel BasisExt BasisExtProofs Rows RlweModel KeyGenModel Galois CtModel KeySwitchModel BfvModel BfvMulModel KsPool.
Open Scope Z_scope.

Section Model.
  Context {N : nat} (om : nat -> list (R N)).
  Notation R := (R N).
  Implicit Types (pp : rparams).

  (** keygen.go:14-21: number of calls of gaussianSamplerQ so far, poolQ, poolQP (the uniform samplers are never called) *)
  Record gst := GS { gn : nat; gQ : list R; gQP : polyQP N }.
  (** keygen.go:25-40 *)
  Definition newGst pp : gst := GS 0 (tab (length (Qm pp)) (fun _ => R0)) (newQP pp).
  Definition setgQ (st : gst) x : gst := GS (gn st) x (gQP st).
  Definition setgQP (st : gst) x : gst := GS (gn st) (gQ st) x.
  (** gaussianSamplerQ.Read / ReadLvl(levelQ, .): rows 0..levelQ of the destination *)
  Definition rd level (st : gst) (old : list R) : gst * list R := (GS (S (gn st)) (gQ st) (gQP st), wr level (om (gn st)) old).

  (** keygen.go:123-133 into the buffer [e]: sampler, extension to P, NTT, each writing over the buffer *)
  Definition GaussSt pp (st : gst) (e : polyQP N) : gst * polyQP N :=
    let L := maxLevel pp in
    let '(st, q) := rd L st (qpQ e) in
    let e := QP q (wr (levelP pp) (qpP (extP pp q)) (qpP e)) in
    (st, wrQP pp L (lvl1 pp L ntt e) e).
  (** for i := 0; i < n; i++ with a body that fills entry i of a new key *)
  Definition fillSt {A} (n : nat) (f : gst -> nat -> res (gst * A)) (st : gst) : res (gst * list A) :=
    rfold (fun '(st, acc) i => '(st, x) <- f st i ;; Ok (st, acc ++ [x])) (seq 0 n) (st, nil).
  (** for i := 0; i < n; i++ with a body that writes entry i of the key [l] given by the caller *)
  Definition fillInto (n : nat) (f : gst -> nat -> polyQP N -> res (gst * polyQP N)) (l : swk N) (st : gst) : res (gst * swk N) :=
    '(st, new) <- fillSt n (fun st i => o <- idx l i ;; f st i o) st ;; Ok (st, new ++ skipn n l).

  (** keygen.go:310-324: for j := 0; j < alpha; j++, rows i*alpha+j of the digit; the break at 315 leaves the loop for good *)
  Definition addBlock pp i (pool q : list R) : list R :=
    fold_left (fun q j => let ix := (i * alpha pp + j)%nat in
                 if (S (maxLevel pp) <=? ix)%nat then q else upd q ix (r_add (Qi pp ix) (row q ix) (row pool ix))) (seq 0 (alpha pp)) q.
  (** keygen.go:270-327: poolQ receives P*skIn; one digit at a time *)
  Definition GenSwkSt pp (st : gst) (skIn : polyQP N) (dst : swk N) : res (gst * swk N) :=
    let L := maxLevel pp in
    let st := setgQ st (wr L (lvlQ1 pp L (fun m => r_scal m (Pprod pp)) (qpQ skIn)) (gQ st)) in
    fillInto (beta pp L) (fun st i o =>
      let '(st, e) := GaussSt pp st o in
      let e := wrQP pp L (lvl1 pp L r_mform e) e in
      Ok (st, QP (addBlock pp i (gQ st) (qpQ e)) (qpP e))) dst st.

  (** keygen.go:44-55 with gaussianSamplerQ (GenSecretKeyGaussian, 63-65) *)
  Definition GenSkGaussSt pp (st : gst) id : gst * secretKey N :=
    let '(st, q) := rd (maxLevel pp) st (tab (length (Qm pp)) (fun _ => R0)) in (st, genSecretKeyFromSampler pp id q).
  (** keygen.go:88-109 *)
  Definition GenPkSt pp (crs : crsT N) (st : gst) (sk : secretKey N) : res (gst * publicKey N) :=
    let L := maxLevel pp in
    let '(st, e) := GaussSt pp st (newQP pp) in
    c <- crs_get crs 0 ;;
    a <- idx c 0 ;;
    Ok (st, PK (sk_id sk) (wrQP pp L (lvl3 pp L r_mont_sub (sk_val sk) a e) e) a).
  (** keygen.go:163-170 with the buffer of the error selected by [get] and [set]: b_i = -s a_i + e *)
  Definition genBEntry pp (get : gst -> polyQP N) (set : gst -> polyQP N -> gst) (a : swk N) (sk : polyQP N) (st : gst) i : res (gst * polyQP N) :=
    let L := maxLevel pp in
    ai <- idx a i ;;
    let bi := lvl1 pp L r_invmform (lvl2 pp L r_mont ai sk) in
    let '(st, t) := GaussSt pp st (get st) in
    let st := set st t in
    Ok (st, lvl1 pp L r_mform (lvl2 pp L r_sub (get st) bi)).
  (** "for i < beta { f(a.Value[i], x.Value[i]) }" over the key just built *)
  Definition zipSt pp (f : polyQP N -> polyQP N -> polyQP N) (a x : swk N) : res (swk N) := swk_zip pp f a x.
  (** keygen.go:137-187; tmp is poolQP *)
  Definition GenRlkSt pp (crs : crsT N) (st : gst) (sk r : secretKey N) : res (gst * relinKey N) :=
    let L := maxLevel pp in
    if (length (Pm pp) =? 0)%nat then Panic else
    a <- crs_get crs 0 ;;
    u <- crs_get crs (-1) ;;
    '(st, b) <- fillSt (beta pp L) (genBEntry pp gQP setgQP a (sk_val sk)) st ;;
    '(st, d) <- GenSwkSt pp st (sk_val sk) (newSwk pp) ;;
    d <- zipSt pp (fun ai di => lvl3 pp L r_mont_sub ai (sk_val r) di) a d ;;
    '(st, v) <- GenSwkSt pp st (sk_val r) (newSwk pp) ;;
    v <- zipSt pp (fun ui vi => lvl1 pp L r_neg (lvl3 pp L r_mont_add ui (sk_val sk) vi)) u v ;;
    Ok (st, RLK (sk_id sk) b d v).
  (** keygen.go:190-229 *)
  Definition GenRotSt pp (crs : crsT N) (st : gst) (rotidx : Z) (sk : secretKey N) : res (gst * rotKey N) :=
    let L := maxLevel pp in
    _ <- crs_get crs rotidx ;;
    k <- norm_rot N rotidx ;;
    let skOut := permQP pp (invGalEl N (galEl N k)) (sk_val sk) in
    '(st, v) <- GenSwkSt pp st (sk_val sk) (newSwk pp) ;;
    a <- crs_get crs k ;;
    v <- zipSt pp (fun ai ki => lvl3 pp L r_mont_sub ai skOut ki) a v ;;
    Ok (st, RTK (sk_id sk) k v).
  (** keygen.go:240-267 *)
  Definition GenConjSt pp (crs : crsT N) (st : gst) (sk : secretKey N) : res (gst * conjKey N) :=
    let L := maxLevel pp in
    let skOut := permQP pp (conjEl N) (sk_val sk) in
    '(st, v) <- GenSwkSt pp st skOut (newSwk pp) ;;
    a <- crs_get crs (-2) ;;
    v <- zipSt pp (fun ai ki => lvl3 pp L r_mont_sub ai (sk_val sk) ki) a v ;;
    Ok (st, CJK (sk_id sk) v).

  (** mkbfv/keygen.go:98-130, 133-160: one half of GenBFVSwitchingKey *)
  Definition GenBSwkSt b (ms : list Z) (st : gst) (sk : polyQP N) : res (gst * swk N) :=
    let pp := ppQ b in let L := maxLevel pp in
    fillSt (beta pp L) (fun st i =>
      g <- gadInt b ms i ;;
      let '(st, e) := GaussSt pp st (newQP pp) in
      Ok (st, lvl1 pp L r_mform (lvl2 pp L r_add (lvl1 pp L (fun m => r_scal m g) (lvl1 pp L r_invmform sk)) e))) st.
  (** mkbfv/keygen.go:24-88: b1 and b2 are filled in the same loop; e1 and e2 are allocated before it and reused *)
  Definition GenBRlkSt b (crs : crsT N) (st : gst) (sk r : secretKey N) : res (gst * bRelinKey N) :=
    let pp := ppQ b in let L := maxLevel pp in
    a1 <- crs_get crs 0 ;;
    a2 <- crs_get crs (-3) ;;
    u <- crs_get crs (-1) ;;
    '(st, _, _, b1, b2) <- rfold (fun '(st, e1, e2, b1, b2) i =>
        x1 <- idx a1 i ;;
        let m1 := lvl1 pp L r_invmform (lvl2 pp L r_mont x1 (sk_val sk)) in
        let '(st, e1) := GaussSt pp st e1 in
        let m1 := lvl1 pp L r_mform (lvl2 pp L r_sub e1 m1) in
        x2 <- idx a2 i ;;
        let m2 := lvl1 pp L r_invmform (lvl2 pp L r_mont x2 (sk_val sk)) in
        let '(st, e2) := GaussSt pp st e2 in
        let m2 := lvl1 pp L r_mform (lvl2 pp L r_sub e2 m2) in
        Ok (st, e1, e2, b1 ++ [m1], b2 ++ [m2])) (seq 0 (beta pp L)) (st, newQP pp, newQP pp, nil, nil) ;;
    '(st, k1) <- GenBSwkSt b (Qs pp) st (sk_val sk) ;;
    '(st, k2) <- GenBSwkSt b (Ms b) st (sk_val sk) ;;
    d1 <- zipSt pp (fun ai di => lvl3 pp L r_mont_sub ai (sk_val r) di) a1 k1 ;;
    d2 <- zipSt pp (fun ai di => lvl3 pp L r_mont_sub ai (sk_val r) di) a2 k2 ;;
    '(st, v) <- GenSwkSt pp st (sk_val r) (newSwk pp) ;;
    v <- zipSt pp (fun ui vi => lvl1 pp L r_neg (lvl3 pp L r_mont_add ui (sk_val sk) vi)) u v ;;
    Ok (st, BRLK (sk_id sk) b1 b2 d1 d2 v).

  (** the exported operations of a KeyGenerator that return a key; a ternary secret key has its own sampler (keygen.go:68-85), whose rows are the argument *)
  Inductive genop :=
  | KSecret (id : string) (ss : list R)
  | KSecretGauss (id : string)
  | KPublic (sk : secretKey N)
  | KSwitch (sk : secretKey N) (dst : swk N)
  | KRelin (sk r : secretKey N)
  | KRotation (k : Z) (sk : secretKey N)
  | KConj (sk : secretKey N)
  | KBRelin (b : bparams) (sk r : secretKey N).
  Inductive genkey :=
  | OSecret (k : secretKey N) | OPublic (k : publicKey N) | OSwitch (k : swk N) | ORelin (k : relinKey N) | ORotation (k : rotKey N) | OConj (k : conjKey N) | OBRelin (k : bRelinKey N).
  (** one call *)
  Definition gcall pp (crs : crsT N) (st : gst) (op : genop) : res (gst * genkey) :=
    match op with
    | KSecret id ss => Ok (st, OSecret (genSecretKeyFromSampler pp id ss))
    | KSecretGauss id => let '(st, k) := GenSkGaussSt pp st id in Ok (st, OSecret k)
    | KPublic sk => '(st, k) <- GenPkSt pp crs st sk ;; Ok (st, OPublic k)
    | KSwitch sk dst => '(st, k) <- GenSwkSt pp st (sk_val sk) dst ;; Ok (st, OSwitch k)
    | KRelin sk r => '(st, k) <- GenRlkSt pp crs st sk r ;; Ok (st, ORelin k)
    | KRotation k sk => '(st, k) <- GenRotSt pp crs st k sk ;; Ok (st, ORotation k)
    | KConj sk => '(st, k) <- GenConjSt pp crs st sk ;; Ok (st, OConj k)
    | KBRelin b sk r => '(st, k) <- GenBRlkSt b crs st sk r ;; Ok (st, OBRelin k)
    end.

  (** ** mkrlwe/encryptor.go:8-21: number of sampler calls so far (ternary and Gaussian sampler together), poolQ[0] *)
  Record est := ES { en : nat; eQ : list R }.
  (** encryptor.go:28-53 *)
  Definition newEst pp : est := ES 0 (tab (length (Qm pp)) (fun _ => R0)).
  (** a Lvl operation with destination ct.Value[id]: rows 0..level; a polynomial with fewer rows is an index panic *)
  Definition wrC level (ct : ctT N) id (new : list R) : res (ctT N) := p <- cgetL ct id level ;; Ok (cset ct id (Pol (wr level new (prows p)) (pntt p))).
  (** ReadLvl into poolQ[0] *)
  Definition erd level (st : est) : est := ES (S (en st)) (wr level (om (en st)) (eQ st)).
  Definition eset level (st : est) new : est := ES (en st) (wr level new (eQ st)).
  (** gaussianSampler.ReadAndAddLvl(ctOut.Level(), ct.Value[id]): adds a sample to rows 0..ctOut.Level() *)
  Definition rdAdd pp (st : est) (ct : ctT N) id : res (est * ctT N) :=
    lc <- ctLevel ct ;;
    p <- cgetL ct id lc ;;
    ct <- wrC lc ct id (lvlQ2 pp lc r_add (prows p) (om (en st))) ;;
    Ok (ES (S (en st)) (eQ st), ct).
  (** encryptor.go:55-118 *)
  Definition EncryptSt pp (st : est) (pt : poly N) (pk : publicKey N) (ct : ctT N) : res (est * ctT N) :=
    let id := pk_id pk in
    lc <- ctLevel ct ;;
    let level := Nat.min (plevel pt) lc in
    p0 <- cget ct id0 ;;
    let ciphertextNTT := pntt p0 in
    let st := erd level st in
    let st := eset level st (lvlQ1 pp level ntt (eQ st)) in
    let st := eset level st (lvlQ1 pp level r_mform (eQ st)) in
    ct <- wrC level ct id0 (lvlQ2 pp level r_mont (eQ st) (qpQ (pk0 pk))) ;;
    ct <- wrC level ct id (lvlQ2 pp level r_mont (eQ st) (qpQ (pk1 pk))) ;;
    '(st, ct) <- (if ciphertextNTT
       then
         let st := erd level st in
         let st := eset level st (lvlQ1 pp level ntt (eQ st)) in
         p1 <- cgetL ct id level ;;
         ct <- wrC level ct id (lvlQ2 pp level r_add (prows p1) (eQ st)) ;;
         let st := erd level st in
         if negb (pntt pt) then
           let st := eset level st (lvlQ2 pp level r_add (eQ st) (prows pt)) in
           let st := eset level st (lvlQ1 pp level ntt (eQ st)) in
           p0 <- cgetL ct id0 level ;;
           ct <- wrC level ct id0 (lvlQ2 pp level r_add (prows p0) (eQ st)) ;; Ok (st, ct)
         else
           let st := eset level st (lvlQ1 pp level ntt (eQ st)) in
           p0 <- cgetL ct id0 level ;;
           ct <- wrC level ct id0 (lvlQ2 pp level r_add (prows p0) (eQ st)) ;;
           p0 <- cgetL ct id0 level ;;
           ct <- wrC level ct id0 (lvlQ2 pp level r_add (prows p0) (prows pt)) ;; Ok (st, ct)
       else
         p0 <- cgetL ct id0 level ;;
         ct <- wrC level ct id0 (lvlQ1 pp level intt (prows p0)) ;;
         p1 <- cgetL ct id level ;;
         ct <- wrC level ct id (lvlQ1 pp level intt (prows p1)) ;;
         '(st, ct) <- rdAdd pp st ct id0 ;;
         '(st, ct) <- rdAdd pp st ct id ;;
         if negb (pntt pt) then
           p0 <- cgetL ct id0 level ;;
           ct <- wrC level ct id0 (lvlQ2 pp level r_add (prows p0) (prows pt)) ;; Ok (st, ct)
         else
           let st := eset level st (lvlQ1 pp level intt (prows pt)) in
           p0 <- cgetL ct id0 level ;;
           ct <- wrC level ct id0 (lvlQ2 pp level r_add (prows p0) (eQ st)) ;; Ok (st, ct)) ;;
    p0 <- cget ct id0 ;;
    p1 <- cget ct id ;;
    let ct := cset ct id (Pol (prows p1) (pntt p0)) in
    p0 <- cget ct id0 ;;
    let ct := cset ct id0 (Pol (firstn (S level) (prows p0)) (pntt p0)) in
    p1 <- cget ct id ;;
    Ok (st, cset ct id (Pol (firstn (S level) (prows p1)) (pntt p1))).
End Model.
Arguments gst : clear implicits.
Arguments est : clear implicits.
Arguments genop : clear implicits.
Arguments genkey : clear implicits.
