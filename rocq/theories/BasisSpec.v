(** Specification vocabulary for the basis-conversion properties, independent of the model. *)
From Verif Require Import Base.
From Coq Require Import Znumtheory.
Open Scope Z_scope.

(** product of a list of moduli *)
Definition product (l : list Z) : Z := fold_right Z.mul 1 l.
(** a list of moduli the library accepts: distinct odd primes below 2^61 *)
Definition moduli (l : list Z) : Prop := NoDup l /\ forall q, In q l -> prime q /\ 2 < q < 2 ^ 61.
(** [rows] are machine words congruent to x modulo each modulus *)
Definition residues_of (x : Z) (Q rows : list Z) : Prop :=
  length rows = length Q /\ forall i, (i < length Q)%nat -> 0 <= nth i rows 0 < 2 ^ 64 /\ (nth i Q 0 | nth i rows 0 - x).
(** canonical residues *)
Definition canonical (x : Z) (Q rows : list Z) : Prop :=
  length rows = length Q /\ forall i, (i < length Q)%nat -> nth i rows 0 = x mod nth i Q 0.
(** X is in [0, D) up to an exception of relative size 2^-40 *)
Definition almost_reduced (X D : Z) : Prop := - D < 2 ^ 40 * X < (2 ^ 40 + 1) * D.
