(** Model of mkrlwe/elements.go, encryptor.go and decryptor.go on residue polynomials.
    A Ciphertext is a Go map from identities to polynomials; "0" is the constant component.
    In-place operations on ct.Value[id] are writes of the map entry (the polynomials of one ciphertext are distinct objects;
    object identity is treated in HeapModel.v).  A Lvl operation on a polynomial with exactly level+1 rows rewrites all its rows. *)
From Verif Require Import Base IdSetModel NumTheory Negacyclic Ntt Word BasisExt Rows RlweModel KeyGenModel.
Open Scope Z_scope.

Section Model.
  Context {N : nat}.
  Notation R := (R N).
  Implicit Types (pp : rparams).

  Definition ctT := gomap string (poly N).
  (** ct.Value[id] dereferenced: a missing entry is a nil pointer *)
  Definition cget (ct : ctT) (id : string) : res (poly N) := match mget seq_dec ct id with Some p => Ok p | None => Panic end.
  Definition cset (ct : ctT) (id : string) (p : poly N) : ctT := mset seq_dec ct id p.
  Definition plevel (p : poly N) : nat := (length (prows p) - 1)%nat.
  Definition parties (ct : ctT) : list string := filter (fun id => if string_dec id id0 then false else true) (keys ct).

  (** ring.NewPoly: zero rows, flag false *)
  Definition zeroP (n : nat) : poly N := Pol (tab n (fun _ => R0)) false.
  (** elements.go:22-33; the map is built in the order of the range over the set *)
  Definition NewCiphertext (o : list string -> list string) (ids : idset) (level : nat) : ctT :=
    fold_left (fun c id => cset c id (zeroP (S level))) (o (keys ids)) (cset nil id0 (zeroP (S level))).
  (** elements.go:36-44 *)
  Definition NewCiphertextNTT (o : list string -> list string) (ids : idset) (level : nat) : ctT :=
    map (fun '(id, p) => (id, Pol (prows p) true)) (NewCiphertext o ids level).
  (** elements.go:47-57 *)
  Definition IDSetOf (o : list string -> list string) (ct : ctT) : res idset :=
    rfold (fun s id => if string_dec id id0 then Ok s else is_add s id) (o (keys ct)) is_new.
  (** elements.go:60-62 *)
  Definition ctLevel (ct : ctT) : res nat := p <- cget ct id0 ;; Ok (plevel p).
  (** elements.go:70-80 (values; sharing is in HeapModel.v) *)
  Definition CopyNew (o : list string -> list string) (ct : ctT) : res ctT :=
    p0 <- cget ct id0 ;;
    rfold (fun c id => p <- cget ct id ;; Ok (cset c id p)) (o (keys ct)) (cset nil id0 p0).
  (** lattigo ring.Poly.Copy: the rows both polynomials have, and the flag (p1.IsNTT = p2.IsNTT) *)
  Definition polyCopy (dst src : poly N) : poly N :=
    let n := Nat.min (length (prows dst)) (length (prows src)) in
    Pol (firstn n (prows src) ++ skipn n (prows dst)) (pntt src).
  (** elements.go:83-87 *)
  Definition Copy (o : list string -> list string) (dst src : ctT) : res ctT :=
    rfold (fun c id => d <- cget c id ;; p <- cget src id ;; Ok (cset c id (polyCopy d p))) (o (keys src)) dst.
  (** elements.go:90-105 *)
  Definition PadCiphertext (o : order) (ct : ctT) (ids : idset) : res ctT :=
    p0 <- cget ct id0 ;;
    old <- IDSetOf (o 0%nat) ct ;;
    Ok (fold_left (fun c id => if is_has old id then c else cset c id (Pol (tab (S (plevel p0)) (fun _ => R0)) (pntt p0))) (o 1%nat (keys ids)) ct).

  (** encryptor.go:55-118.  [u], [e0], [e1] are the rows the samplers wrote. *)
  Definition Encrypt pp (pt : poly N) (pk : publicKey N) (ct : ctT) (u e0 e1 : list R) : res ctT :=
    let id := pk_id pk in
    p0 <- cget ct id0 ;;
    let level := Nat.min (plevel pt) (plevel p0) in
    let ciphertextNTT := pntt p0 in
    let uM := lvlQ1 pp level r_mform (lvlQ1 pp level ntt u) in
    let ct := cset ct id0 (Pol (lvlQ2 pp level r_mont uM (qpQ (pk0 pk))) (pntt p0)) in
    p1 <- cget ct id ;;
    let ct := cset ct id (Pol (lvlQ2 pp level r_mont uM (qpQ (pk1 pk))) (pntt p1)) in
    ct <- (if ciphertextNTT
           then
             p1 <- cget ct id ;;
             let ct := cset ct id (Pol (lvlQ2 pp level r_add (prows p1) (lvlQ1 pp level ntt e1)) (pntt p1)) in
             p0 <- cget ct id0 ;;
             Ok (if negb (pntt pt)
                 then cset ct id0 (Pol (lvlQ2 pp level r_add (prows p0) (lvlQ1 pp level ntt (lvlQ2 pp level r_add e0 (prows pt)))) (pntt p0))
                 else cset ct id0 (Pol (lvlQ2 pp level r_add (lvlQ2 pp level r_add (prows p0) (lvlQ1 pp level ntt e0)) (prows pt)) (pntt p0)))
           else
             p0 <- cget ct id0 ;;
             let ct := cset ct id0 (Pol (lvlQ1 pp level intt (prows p0)) (pntt p0)) in
             p1 <- cget ct id ;;
             let ct := cset ct id (Pol (lvlQ1 pp level intt (prows p1)) (pntt p1)) in
             p0 <- cget ct id0 ;;
             let ct := cset ct id0 (Pol (lvlQ2 pp level r_add (prows p0) e0) (pntt p0)) in
             p1 <- cget ct id ;;
             let ct := cset ct id (Pol (lvlQ2 pp level r_add (prows p1) e1) (pntt p1)) in
             p0 <- cget ct id0 ;;
             Ok (cset ct id0 (Pol (lvlQ2 pp level r_add (prows p0)
                                     (if negb (pntt pt) then prows pt else lvlQ1 pp level intt (prows pt))) (pntt p0)))) ;;
    p0 <- cget ct id0 ;;
    p1 <- cget ct id ;;
    let ct := cset ct id (Pol (prows p1) (pntt p0)) in
    p0 <- cget ct id0 ;;
    let ct := cset ct id0 (Pol (firstn (S level) (prows p0)) (pntt p0)) in
    p1 <- cget ct id ;;
    Ok (cset ct id (Pol (firstn (S level) (prows p1)) (pntt p1))).

  (** decryptor.go:26-43 *)
  Definition PartialDecrypt pp (ct : ctT) (sk : secretKey N) : res ctT :=
    let id := sk_id sk in
    level <- ctLevel ct ;;
    p <- cget ct id ;;
    let ct := if negb (pntt p) then cset ct id (Pol (lvlQ1 pp level ntt (prows p)) (pntt p)) else ct in
    p <- cget ct id ;;
    let ct := cset ct id (Pol (lvlQ2 pp level r_mont (prows p) (qpQ (sk_val sk))) (pntt p)) in
    p <- cget ct id ;;
    let ct := if negb (pntt p) then cset ct id (Pol (lvlQ1 pp level intt (prows p)) (pntt p)) else ct in
    p0 <- cget ct id0 ;;
    p <- cget ct id ;;
    let ct := cset ct id0 (Pol (lvlQ2 pp level r_add (prows p0) (prows p)) (pntt p0)) in
    Ok (mdel seq_dec ct id).

  (** the loop of decryptor.go:55-59 over the key map in the order [o] *)
  Definition decLoop pp (ids : idset) (sks : gomap string (secretKey N)) (l : list string) (ct : ctT) : res ctT :=
    rfold (fun c id => match mget seq_dec sks id with
                       | None => Ok c (* not reached: [l] lists keys of the map *)
                       | Some sk => if is_has ids (sk_id sk) then PartialDecrypt pp c sk else Ok c end) l ct.
  (** decryptor.go:48-66.  The result is the plaintext polynomial (rows replaced, flag kept). *)
  Definition Decrypt pp (o : order) (ct : ctT) (sks : gomap string (secretKey N)) (pt : poly N) : res (poly N) :=
    lc <- ctLevel ct ;;
    let level := Nat.min lc (plevel pt) in
    ctTmp <- CopyNew (o 0%nat) ct ;;
    ids <- IDSetOf (o 1%nat) ctTmp ;;
    ctTmp <- decLoop pp ids sks (o 2%nat (keys sks)) ctTmp ;;
    if (1 <? length ctTmp)%nat then Panic else
    p0 <- cget ctTmp id0 ;;
    Ok (Pol (lvlQ1 pp level r_reduce (prows p0)) (pntt pt)).
End Model.
Arguments ctT : clear implicits.
