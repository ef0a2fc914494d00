(** Model of mkrlwe: parameters, digit decomposition and external product, on residue polynomials.
    A polynomial in the library (ring.Poly) is a slice of rows, one per modulus; here [list (R N)].
    PolyQP (rlwe) is a pair of polynomials.  A SwitchingKey (mkrlwe/keys.go) is a slice of PolyQP. *)
From Verif Require Import Base NumTheory Negacyclic Ntt Word FloatModel BasisExt BasisExtProofs DecompProofs Rows.
Open Scope Z_scope.

(** mkrlwe/params.go:8-12 (the moduli chains and gamma; the CRS is passed separately) *)
Record rparams := RP { Qm : list modulus; Pm : list modulus; gam : nat }.
Definition Qs (pp : rparams) : list Z := map mq (Qm pp).
Definition Ps (pp : rparams) : list Z := map mq (Pm pp).
(** params.go:63-65 *)
Definition alpha (pp : rparams) : nat := (length (Pm pp) / gam pp)%nat.
(** params.go:67-71 *)
Definition beta (pp : rparams) (levelQ : nat) : nat := beta_of levelQ (alpha pp).
Definition levelP (pp : rparams) : nat := (length (Pm pp) - 1)%nat.
Definition maxLevel (pp : rparams) : nat := (length (Qm pp) - 1)%nat.
Definition Pprod (pp : rparams) : Z := prodl (Ps pp).
Definition dmod : modulus := Mod 0 0.
Definition Qi (pp : rparams) (j : nat) : modulus := nth j (Qm pp) dmod.
Definition Pi (pp : rparams) (k : nat) : modulus := nth k (Pm pp) dmod.

Section Model.
  Context {N : nat}.
  Notation R := (R N).
  Implicit Types (pp : rparams).

  Record polyQP := QP { qpQ : list R; qpP : list R }.
  Definition swk := list polyQP.

  (** lattigo "Lvl" operations: rows 0..level of Q and all rows of P *)
  Definition lvlQ1 pp level (f : modulus -> R -> R) (a : list R) : list R :=
    tab (S level) (fun j => f (Qi pp j) (row a j)).
  Definition lvlQ2 pp level (f : modulus -> R -> R -> R) (a b : list R) : list R :=
    tab (S level) (fun j => f (Qi pp j) (row a j) (row b j)).
  Definition lvlQ3 pp level (f : modulus -> R -> R -> R -> R) (a b c : list R) : list R :=
    tab (S level) (fun j => f (Qi pp j) (row a j) (row b j) (row c j)).
  Definition lvl1 pp level (f : modulus -> R -> R) (a : polyQP) : polyQP :=
    QP (lvlQ1 pp level f (qpQ a)) (tab (length (Pm pp)) (fun k => f (Pi pp k) (row (qpP a) k))).
  Definition lvl2 pp level (f : modulus -> R -> R -> R) (a b : polyQP) : polyQP :=
    QP (lvlQ2 pp level f (qpQ a) (qpQ b)) (tab (length (Pm pp)) (fun k => f (Pi pp k) (row (qpP a) k) (row (qpP b) k))).
  Definition lvl3 pp level (f : modulus -> R -> R -> R -> R) (a b c : polyQP) : polyQP :=
    QP (lvlQ3 pp level f (qpQ a) (qpQ b) (qpQ c))
       (tab (length (Pm pp)) (fun k => f (Pi pp k) (row (qpP a) k) (row (qpP b) k) (row (qpP c) k))).

  (** keyswitch.go:21-31 DecomposeSingleNTT: DecomposeAndSplit on every coefficient, then NTT of every row.
      The table is the one NewKeySwitcher builds (keyswitch.go:37). *)
  Definition DecomposeSingleNTT pp level (i : nat) (a : list R) : res polyQP :=
    if (length a <=? level)%nat then Panic (* index out of range *) else
    rows <- colmap (S level + length (Pm pp)) (fun x =>
              '(oq, op) <- DecomposeAndSplit (NewDecomposer (Qs pp) (Ps pp) (gam pp)) (Qs pp) (Ps pp)
                             level (levelP pp) (alpha pp) i (gam pp) (col a x) ;;
              Ok (oq ++ op)) ;;
    Ok (lvl1 pp level ntt (QP (firstn (S level) rows) (skipn (S level) rows))).

  (** a ring.Poly with its domain flag *)
  Record poly := Pol { prows : list R; pntt : bool }.
  (** keyswitch.go:54-60, 85-92: the coefficient form of the input *)
  Definition inv_form pp level (a : poly) : list R :=
    if pntt a then lvlQ1 pp level intt (prows a) else prows a.

  (** keyswitch.go:49-73 *)
  Definition Decompose pp level (a : poly) : res swk :=
    rmapM (fun i => DecomposeSingleNTT pp level i (inv_form pp level a)) (seq 0 (beta pp level)).

  (** keyswitch.go:100-109 and keyswitch_hoisted.go:24-33: sum over the digits, first digit without accumulation *)
  Definition mac_digits pp level (bg : swk) (ds : list polyQP) : res polyQP :=
    rfold (fun acc id => let '(i, d) := id in
             k <- idx bg i ;;
             Ok (if (i =? 0)%nat then lvl2 pp level r_mont k d else lvl3 pp level r_mont_add k d acc))
          (combine (seq 0 (length ds)) ds) (QP nil nil).

  (** keyswitch.go:111-117: InvNTT and division by P.  lattigo's InvNTTLazy may return a + q instead of a;
      the division maps both to the same result (theorem ModDown_lazy). *)
  Definition rescaleP pp level (c : polyQP) : res (list R) :=
    let c' := lvl1 pp level intt c in
    colmap (S level) (fun x => ModDownQPtoQ (Qs pp) (Ps pp) level (levelP pp) (col (qpQ c') x) (col (qpP c') x)).

  (** keyswitch.go:79-118 *)
  Definition ExternalProduct pp level (a : poly) (bg : swk) : res (list R) :=
    ds <- Decompose pp level a ;;
    c <- mac_digits pp level bg ds ;;
    rescaleP pp level c.

  (** keyswitch_hoisted.go:10-40; a hoisted operand has at least Beta(levelQ) digits *)
  Definition ExternalProductHoisted pp level (ah : swk) (bg : swk) : res (list R) :=
    ds <- rmapM (fun i => idx ah i) (seq 0 (beta pp level)) ;;
    c <- mac_digits pp level bg ds ;;
    rescaleP pp level c.
End Model.
Arguments polyQP : clear implicits.
Arguments swk : clear implicits.
Arguments poly : clear implicits.
