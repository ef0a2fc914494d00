(** Model of calls on Encryptors and Decryptors that run in several goroutines (mkrlwe/encryptor.go, mkrlwe/decryptor.go, mkckks/encryptor.go, mkckks/decryptor.go,
    mkbfv/encryptor.go, mkbfv/decryptor.go).
    What calls can share: an Encryptor has poolQ[0], its samplers and the plaintext ptxtPool; a mkckks Decryptor has the plaintext ptxtPool with its scale, a mkbfv Decryptor the
    pointer ptxtPool.Value; mkrlwe's Decrypt writes the plaintext of its caller (its field pool is never used).  Ciphertexts, keys and parameters are only read.
    Simplifications: a step is atomic (one operation on one shared polynomial or one sampler call; what a call does on memory only it can reach is part of a step).  A schedule of these
    steps is also one of the finer interleavings of a real run.  Encoders are a dependency: a message enters as the plaintext polynomial [Encode] writes, and leaves as the polynomial
    and the scale [Decode] reads.  A panic ends its own goroutine. *)
From Flocq Require Import Core BinarySingleNaN.
From Verif Require Import Base IdSetModel KeySetModel NumTheory Negacyclic Ntt Word FloatModel CkksFloat BasisExt Rows RlweModel KeyGenModel Galois CtModel KeySwitchModel CkksModel BfvModel KsPool GenPool DecryptorModel ShareModel.
Open Scope Z_scope.

Section Model.
  Context {N : nat}.
  Notation R := (R N).
  Notation ct := (ctT N).
  Implicit Types (pp : rparams).
  (** the shared part of an object: an Encryptor (mkrlwe/encryptor.go:8-21 with mkckks/encryptor.go:7-13 or mkbfv/encryptor.go:7-12), a mkckks Decryptor (mkckks/decryptor.go:6-11),
      a mkbfv Decryptor (mkbfv/decryptor.go:6-11), the plaintext of a caller of mkrlwe's Decrypt *)
  Inductive obj :=
  | OEnc (st : est N) (ptxtPool : poly N)
  | ODec (ptxtPool : poly N) (scale : f64)
  | ODecB (value : poly N)
  | OPlain (p : poly N).
  (** EncryptMsgNew(msg, pk) of mkckks (encryptor.go:51-58) or mkbfv (47-60) for a message encoded as [pt];
      EncryptPtxt(pt, pk, ctOut) with a new ciphertext (mkckks/encryptor.go:33-36, mkbfv/encryptor.go:30-32);
      Decrypt(c, sks) of mkckks (decryptor.go:35-44), of mkbfv (34-57); Decrypt(c, sks, plaintext) of mkrlwe (decryptor.go:48-66), after which the caller reads its plaintext *)
  Inductive call :=
  | EncryptMsg (pt : poly N) (pk : publicKey N)
  | EncryptPtxt (pt : poly N) (pk : publicKey N)
  | DecryptMsg (c : ckct N) (sks : gomap string (secretKey N))
  | DecryptB (c : ct) (sks : gomap string (secretKey N))
  | DecryptR (c : ct) (sks : gomap string (secretKey N)).
  Inductive answer := ACt (c : ct) | AMsg (p : poly N) (scale : f64) | APoly (p : poly N).
  (** one goroutine: the object it uses, its call, the iteration orders of its map loops, the step it makes next, its local variables (level, ciphertext), its outcome *)
  Record gthread := GT { gObj : nat; gCall : call; gOrd : order; gPh : nat; gLvl : nat; gCt : ct; gOut : option (res answer) }.
  Definition start (k : nat) (c : call) (o : order) : gthread := GT k c o 0 0 nil None.
  Definition local : Type := nat * ct.
  (** what a step does: go on, return, panic; the object is written in each case *)
  Inductive eff := Go (l : local) (x : obj) | Ret (a : answer) (x : obj) | Stop (x : obj).
  Definition goR (x : obj) (r : res (local * obj)) : eff := match r with Ok (l, y) => Go l y | Panic => Stop x end.

  (** encryptor.go:55-118 on a ciphertext in coefficient form, one operation on poolQ[0], ptxtPool or a sampler per step; [mine] is the plaintext of EncryptPtxt, EncryptMsg reads ptxtPool *)
  Definition encStep pp (om : nat -> list R) (o : order) (mine : option (poly N)) (pk : publicKey N) (ph lv : nat) (c : ct) (st : est N) (pool : poly N) : eff :=
    let id := pk_id pk in
    let x := OEnc st pool in
    let pt := match mine with Some p => p | None => pool end in
    let keep (r : res ct) := goR x (c <- r ;; Ok ((lv, c), x)) in
    match ph with
    | 1%nat => (* 57-65: level, then ternarySampler.ReadLvl *)
        goR x (lc <- ctLevel c ;; let lv := Nat.min (plevel pt) lc in Ok ((lv, c), OEnc (erd om lv st) pool))
    | 2%nat => (* 66 *) Go (lv, c) (OEnc (eset lv st (lvlQ1 pp lv ntt (eQ st))) pool)
    | 3%nat => (* 67 *) Go (lv, c) (OEnc (eset lv st (lvlQ1 pp lv r_mform (eQ st))) pool)
    | 4%nat => (* 70 *) keep (wrC lv c id0 (lvlQ2 pp lv r_mont (eQ st) (qpQ (pk0 pk))))
    | 5%nat => (* 72, 96-97 *)
        keep (c <- wrC lv c id (lvlQ2 pp lv r_mont (eQ st) (qpQ (pk1 pk))) ;;
              p0 <- cgetL c id0 lv ;; c <- wrC lv c id0 (lvlQ1 pp lv intt (prows p0)) ;;
              p1 <- cgetL c id lv ;; wrC lv c id (lvlQ1 pp lv intt (prows p1)))
    | 6%nat => (* 100 *) goR x ('(st, c) <- rdAdd om pp st c id0 ;; Ok ((lv, c), OEnc st pool))
    | 7%nat => (* 103 *) goR x ('(st, c) <- rdAdd om pp st c id ;; Ok ((lv, c), OEnc st pool))
    | 8%nat => (* 105-109: the plaintext is read *)
        if negb (pntt pt)
        then keep (p0 <- cgetL c id0 lv ;; wrC lv c id0 (lvlQ2 pp lv r_add (prows p0) (prows pt)))
        else Go (lv, c) (OEnc (eset lv st (lvlQ1 pp lv intt (prows pt))) pool)
    | _ => (* 110, then 113-116 *)
        match (c <- (if negb (pntt pt) then Ok c else p0 <- cgetL c id0 lv ;; wrC lv c id0 (lvlQ2 pp lv r_add (prows p0) (eQ st))) ;;
               p0 <- cget c id0 ;; p1 <- cget c id ;;
               let c := cset c id (Pol (prows p1) (pntt p0)) in
               p0 <- cget c id0 ;;
               let c := cset c id0 (Pol (firstn (S lv) (prows p0)) (pntt p0)) in
               p1 <- cget c id ;;
               Ok (cset c id (Pol (firstn (S lv) (prows p1)) (pntt p1)))) with
        | Ok c => Ret (ACt c) x
        | Panic => Stop x
        end
    end.
  (** EncryptMsgNew: mkckks/encryptor.go:52-55, 44, elements.go; mkbfv/encryptor.go:48-50, 39; EncryptPtxt after the allocation of its ciphertext *)
  Definition encBegin pp (o : order) (write : option (poly N)) (pk : publicKey N) (st : est N) (pool : poly N) : eff :=
    goR (OEnc st pool) (ids <- is_add is_new (pk_id pk) ;;
      Ok ((0%nat, NewCiphertext (o 0%nat) ids (maxLevel pp)), OEnc st (match write with Some p => p | None => pool end))).
  (** decryptor.go (mkrlwe) 50-51: level, and the plaintext is cut to it *)
  Definition cutStep (c : ct) (pool : poly N) : res (local * poly N) := lc <- ctLevel c ;; Ok ((Nat.min lc (plevel pool), c), truncPool pool lc).
  (** 53-63: all on the copy *)
  Definition partStep pp (o : order) (sks : gomap string (secretKey N)) (lv : nat) (c1 : ct) : res local :=
    ctTmp <- CopyNew (o 0%nat) c1 ;;
    ids <- IDSetOf (o 1%nat) ctTmp ;;
    ctTmp <- decLoop pp ids sks (o 2%nat (keys sks)) ctTmp ;;
    if (1 <? length ctTmp)%nat then Panic else Ok (lv, ctTmp).
  (** 65: ReduceLvl(level, ct0, plaintext.Value): writes the rows there are, panics if there are too few; then the new polynomial *)
  Definition reduceStep pp (lv : nat) (c : ct) (pool : poly N) : res (poly N * bool) :=
    p0 <- cget c id0 ;; Ok (Pol (wr lv (lvlQ1 pp lv r_reduce (prows p0)) (prows pool)) (pntt pool), (lv <? length (prows pool))%nat).
  Definition decStep pp (o : order) (c : ckct N) (sks : gomap string (secretKey N)) (ph lv : nat) (cl : ct) (pool : poly N) (sc : f64) : eff :=
    let x := ODec pool sc in
    match ph with
    | 0%nat => (* mkckks/decryptor.go:36 copies first *) goR x (c1 <- CopyNew (o 3%nat) (cv c) ;; '(l, p) <- cutStep c1 pool ;; Ok (l, ODec p sc))
    | 1%nat => goR x (l <- partStep pp o sks lv cl ;; Ok (l, x))
    | 2%nat => match reduceStep pp lv cl pool with Ok (p, true) => Go (lv, cl) (ODec p sc) | Ok (p, false) => Stop (ODec p sc) | Panic => Stop x end
    | 3%nat => (* mkckks/decryptor.go:39 *) Go (lv, cl) (ODec pool (csc c))
    | _ => (* 41: Decode reads the buffer and its scale *) Ret (AMsg pool sc) x
    end.
  Definition decRStep pp (o : order) (c : ct) (sks : gomap string (secretKey N)) (ph lv : nat) (cl : ct) (pool : poly N) : eff :=
    let x := OPlain pool in
    match ph with
    | 0%nat => goR x ('(l, p) <- cutStep c pool ;; Ok (l, OPlain p))
    | 1%nat => goR x (l <- partStep pp o sks lv cl ;; Ok (l, x))
    | 2%nat => match reduceStep pp lv cl pool with Ok (p, true) => Go (lv, cl) (OPlain p) | Ok (p, false) => Stop (OPlain p) | Panic => Stop x end
    | _ => Ret (APoly pool) x
    end.
  (** mkbfv/decryptor.go:36-49 on the copy; 52; 53: DecodeInt reads what the pointer points to *)
  Definition decBStep pp (o : order) (c : ct) (sks : gomap string (secretKey N)) (ph : nat) (cl : ct) (v : poly N) : eff :=
    let x := ODecB v in
    match ph with
    | 0%nat => goR x (ctTmp <- CopyNew (o 0%nat) c ;; ids <- IDSetOf (o 1%nat) ctTmp ;; ctTmp <- decLoop pp ids sks (o 2%nat (keys sks)) ctTmp ;; Ok ((0%nat, ctTmp), x))
    | 1%nat => goR x (p <- cget cl id0 ;; Ok ((0%nat, cl), ODecB p))
    | _ => Ret (APoly v) x
    end.
  (** a call only fits an object of its kind *)
  Definition step pp (om : nat -> list R) (t : gthread) (x : obj) : eff :=
    match gCall t, x with
    | EncryptMsg pt pk, OEnc st pool => if (gPh t =? 0)%nat then encBegin pp (gOrd t) (Some pt) pk st pool else encStep pp om (gOrd t) None pk (gPh t) (gLvl t) (gCt t) st pool
    | EncryptPtxt pt pk, OEnc st pool => if (gPh t =? 0)%nat then encBegin pp (gOrd t) None pk st pool else encStep pp om (gOrd t) (Some pt) pk (gPh t) (gLvl t) (gCt t) st pool
    | DecryptMsg c sks, ODec pool sc => decStep pp (gOrd t) c sks (gPh t) (gLvl t) (gCt t) pool sc
    | DecryptB c sks, ODecB v => decBStep pp (gOrd t) c sks (gPh t) (gCt t) v
    | DecryptR c sks, OPlain p => decRStep pp (gOrd t) c sks (gPh t) (gLvl t) (gCt t) p
    | _, _ => Stop x
    end.
  (** the next step of a goroutine; one that has ended makes none *)
  Definition gexec pp (om : nat -> nat -> list R) (t : gthread) (x : obj) : gthread * obj :=
    match gOut t with
    | Some _ => (t, x)
    | None => match step pp (om (gObj t)) t x with
              | Go (l, c) y => (GT (gObj t) (gCall t) (gOrd t) (S (gPh t)) l c None, y)
              | Ret a y => (GT (gObj t) (gCall t) (gOrd t) (gPh t) (gLvl t) (gCt t) (Some (Ok a)), y)
              | Stop y => (GT (gObj t) (gCall t) (gOrd t) (gPh t) (gLvl t) (gCt t) (Some Panic), y)
              end
    end.
  (** the schedule: who makes the next step (a number that is no goroutine makes none).  [om k] is the stream of samples of the Encryptor number k. *)
  Fixpoint gsched pp (om : nat -> nat -> list R) (sch : list nat) (ts : list gthread) (xs : list obj) : list gthread * list obj :=
    match sch with
    | nil => (ts, xs)
    | i :: sch => match nth_error ts i with
                  | Some t => match nth_error xs (gObj t) with
                              | Some x => let '(t', x') := gexec pp om t x in gsched pp om sch (set_nth i t' ts) (set_nth (gObj t) x' xs)
                              | None => gsched pp om sch ts xs
                              end
                  | None => gsched pp om sch ts xs
                  end
    end.
End Model.
Arguments obj : clear implicits.
Arguments call : clear implicits.
Arguments answer : clear implicits.
Arguments gthread : clear implicits.
