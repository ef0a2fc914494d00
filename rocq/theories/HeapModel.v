(** Object identity: ring.Poly objects live on a heap and a Ciphertext maps identities to references.
    The same functions as in CtModel.v, with in-place writes through references; theorem-wise HeapProofs.v shows that they
    compute what CtModel.v computes and which objects they leave alone. *)
From Verif Require Import Base IdSetModel NumTheory Negacyclic Ntt Word BasisExt Rows RlweModel KeyGenModel CtModel.
Open Scope Z_scope.

Section Model.
  Context {N : nat}.
  Notation R := (R N).
  Implicit Types (pp : rparams).
  Definition heap := list (poly N).
  Definition hct := gomap string nat.
  Definition dpoly : poly N := Pol nil false.
  Definition view (h : heap) (c : hct) : ctT N := map (fun '(id, r) => (id, nth r h dpoly)) c.

  (** the object behind ct.Value[id] *)
  Definition href (c : hct) (id : string) : res nat := match mget seq_dec c id with Some r => Ok r | None => Panic end.
  Definition hload (h : heap) (r : nat) : res (poly N) := match nth_error h r with Some p => Ok p | None => Panic end.
  Definition hread (h : heap) (c : hct) (id : string) : res (poly N) := r <- href c id ;; hload h r.
  Definition hwrite (h : heap) (c : hct) (id : string) (p : poly N) : res heap := r <- href c id ;; _ <- hload h r ;; Ok (upd h r p).

  (** elements.go:70-80: every component is a new object *)
  Definition hCopyNew (o : list string -> list string) (h : heap) (c : hct) : res (heap * hct) :=
    p0 <- hread h c id0 ;;
    rfold (fun '(h, d) id => p <- hread h c id ;; Ok (h ++ [p], mset seq_dec d id (length h))) (o (keys c)) (h ++ [p0], [(id0, length h)]).
  (** elements.go:83-87 *)
  Definition hCopy (o : list string -> list string) (h : heap) (dst src : hct) : res heap :=
    rfold (fun h id => d <- hread h dst id ;; p <- hread h src id ;; hwrite h dst id (polyCopy d p)) (o (keys src)) h.

  (** decryptor.go:26-43 *)
  Definition hPartialDecrypt pp (h : heap) (c : hct) (sk : secretKey N) : res (heap * hct) :=
    let id := sk_id sk in
    p0 <- hread h c id0 ;;
    let level := plevel p0 in
    p <- hread h c id ;;
    h <- (if negb (pntt p) then hwrite h c id (Pol (lvlQ1 pp level ntt (prows p)) (pntt p)) else Ok h) ;;
    p <- hread h c id ;;
    h <- hwrite h c id (Pol (lvlQ2 pp level r_mont (prows p) (qpQ (sk_val sk))) (pntt p)) ;;
    p <- hread h c id ;;
    h <- (if negb (pntt p) then hwrite h c id (Pol (lvlQ1 pp level intt (prows p)) (pntt p)) else Ok h) ;;
    p0 <- hread h c id0 ;;
    p <- hread h c id ;;
    h <- hwrite h c id0 (Pol (lvlQ2 pp level r_add (prows p0) (prows p)) (pntt p0)) ;;
    Ok (h, mdel seq_dec c id).

  (** decryptor.go:48-66; [pt] is the reference of the output polynomial *)
  Definition hDecrypt pp (o : order) (h : heap) (c : hct) (sks : gomap string (secretKey N)) (pt : nat) : res heap :=
    p0 <- hread h c id0 ;;
    p <- hload h pt ;;
    let level := Nat.min (plevel p0) (plevel p) in
    let h := upd h pt (Pol (firstn (S level) (prows p)) (pntt p)) in
    '(h, tmp) <- hCopyNew (o 0%nat) h c ;;
    ids <- IDSetOf (o 1%nat) (view h tmp) ;;
    '(h, tmp) <- rfold (fun '(h, d) id => match mget seq_dec sks id with
                       | None => Ok (h, d)
                       | Some sk => if is_has ids (sk_id sk) then hPartialDecrypt pp h d sk else Ok (h, d) end) (o 2%nat (keys sks)) (h, tmp) ;;
    if (1 <? length tmp)%nat then Panic else
    p0 <- hread h tmp id0 ;;
    p <- hload h pt ;;
    Ok (upd h pt (Pol (lvlQ1 pp level r_reduce (prows p0)) (pntt p))).
End Model.
Arguments heap : clear implicits.
