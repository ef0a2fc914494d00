(** Parameter construction: mkrlwe/params.go NewParameters, Alpha, Beta; mkckks/params.go NewParameters; mkbfv/params.go NewParametersFromLiteral.
    lattigo's ring.NewRing and rlwe.NewParametersFromLiteral enter by their contract: a ring of degree 2^logN >= 16 is made from a non-empty list of distinct primes that are 1 modulo 2N, with a 2N-th root of unity for
    each; anything else is an error. The limits of the library on the size and the number of the moduli are not part of the contract (they are hypotheses where needed). *)
From Flocq Require Import Core BinarySingleNaN.
From Coq Require Import Znumtheory.
From Verif Require Import Base NumTheory Negacyclic Ntt FloatModel Word BasisExt Rows RlweModel KeyGenModel BfvMulModel.
Open Scope Z_scope.

(** contract of lattigo *)
Fixpoint distinct (l : list Z) : bool := match l with nil => true | x :: l => negb (existsb (Z.eqb x) l) && distinct l end.
Definition ntt_prime (logN : nat) (q : Z) : bool := (if prime_dec q then true else false) && (q mod (2 * 2 ^ Z.of_nat logN) =? 1).
(** ring.NewRing(1 << logN, moduli); [root N q] is the root of unity it computes *)
Definition newRing (root : nat -> Z -> Z) (logN : nat) (ms : list Z) : res (list modulus) :=
  if ((4 <=? logN)%nat && negb (length ms =? 0)%nat && distinct ms && forallb (ntt_prime logN) ms)%bool then Ok (map (fun q => Mod q (root (2 ^ logN)%nat q)) ms) else Panic.
(** rlwe.NewParametersFromLiteral: the ring Q, and the ring P unless P is empty *)
Definition newRlwe (root : nat -> Z -> Z) (logN : nat) (Q P : list Z) : res (list modulus * list modulus) :=
  rq <- newRing root logN Q ;;
  rp <- (match P with nil => Ok nil | _ => newRing root logN P end) ;;
  Ok (rq, rp).

(** make([]T, int(x)): the conversion of an infinite or NaN float64 gives an integer that make rejects (the smallest int on amd64) *)
Definition makeLen (x : f64) : res nat := if is_finite x then if f_trunc x <? 0 then Panic else Ok (Z.to_nat (f_trunc x)) else Panic.

Section Params.
  Context {N : nat}.
  (** mkrlwe/params.go:16-61: alpha by integer division, beta in floating point, the CRS of all default indices from the words [u] of the uniform samplers. The parameters are [pp] (moduli and gamma) and the CRS *)
  Definition rlweNewParameters (pp : rparams) (logN : nat) (u : Z -> nat -> polyQP N) : res (crsT N) :=
    if (gam pp =? 0)%nat then Panic else
    b <- makeLen (f_ceil (f_div (f_of_int (Z.of_nat (length (Qm pp)))) (f_of_int (Z.of_nat (length (Pm pp) / gam pp))))) ;;
    Ok (fold_left (fun c i => mset Z.eq_dec c i (tab b (fun k => lvl1 pp (maxLevel pp) r_mform (u i k)))) (crs_indices logN) nil).
End Params.

(** mkckks/params.go:18-26, 29-40 *)
Record ckksParams (N : nat) := CP { cp_rlwe : rparams; cp_crs : crsT N; cp_logSlots : nat; cp_scale : f64 }.
Arguments cp_rlwe {N}. Arguments cp_crs {N}. Arguments cp_logSlots {N}. Arguments cp_scale {N}.
Definition ckksNewParameters {N} (Q P : list modulus) (logN logSlots : nat) (scale : f64) (u : Z -> nat -> polyQP N) : res (ckksParams N) :=
  let pp := RP Q P 2 in
  crs <- rlweNewParameters pp logN u ;;
  Ok (CP N pp crs logSlots scale).
Definition ckksSlots {N} (p : ckksParams N) : nat := (2 ^ cp_logSlots p)%nat.

(** mkbfv/params.go:36-80 *)
Record bfvLiteral := BL { bl_logN : nat; bl_Q : list Z; bl_QMul : list Z; bl_P : list Z; bl_T : Z }.
Record bfvParams (N : nat) := BFP { bp_par : bparams; bp_crs : crsT N; bp_crsR : crsT N }.
Arguments bp_par {N}. Arguments bp_crs {N}. Arguments bp_crsR {N}.
Definition bfvNewParametersFromLiteral (root : nat -> Z -> Z) (pl : bfvLiteral) (u uR : Z -> nat -> polyQP (2 ^ bl_logN pl)) : res (bfvParams (2 ^ bl_logN pl)) :=
  if negb (length (bl_Q pl) =? length (bl_QMul pl))%nat then Panic else
  let R := bl_Q pl ++ bl_QMul pl in
  ringT <- newRing root (bl_logN pl) [bl_T pl] ;;
  ringQMul <- newRing root (bl_logN pl) (bl_QMul pl) ;;
  '(rq, rp) <- newRlwe root (bl_logN pl) (bl_Q pl) (bl_P pl) ;;
  '(rr, rp') <- newRlwe root (bl_logN pl) R (bl_P pl) ;;
  crs <- rlweNewParameters (RP rq rp 2) (bl_logN pl) u ;;
  crsR <- rlweNewParameters (RP rr rp' 2) (bl_logN pl) uR ;;
  Ok (BFP _ (BP rq ringQMul rp (match ringT with t :: _ => mq t | nil => 0 end)) crs crsR).
