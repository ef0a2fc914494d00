(** Specification vocabulary for ciphertexts: the polynomial a component stands for, well-formed ciphertexts and
    the decryption ("phase") of a ciphertext under a family of secrets. *)
From Verif Require Import Base NumTheory Negacyclic Ntt Word BasisExt Rows RlweModel KeyGenModel SchemeSpec CtModel.
Open Scope Z_scope.

Section Spec.
  Context {N : nat} (pp : rparams).
  Notation R := (R N).

  (** the polynomial row j of a component stands for, modulo Q_j, in either domain *)
  Definition pvalue (p : poly N) (j : nat) : R := if pntt p then intt (Qi pp j) (row (prows p) j) else row (prows p) j.
  Definition comp (ct : ctT N) (id : string) : poly N := match mget seq_dec ct id with Some p => p | None => Pol nil false end.

  (** c_0 + sum over the parties of c_id * s_id, modulo Q_j *)
  Definition phase (s : string -> R) (ct : ctT N) (j : nat) : R :=
    add (pvalue (comp ct id0) j) (Lsum (parties ct) (fun id => mul (pvalue (comp ct id) j) (s id))).

  (** a component: level+1 rows of residues in [0, q], domain flag [fl] *)
  Definition wfpoly (level : nat) (fl : bool) (p : poly N) : Prop :=
    length (prows p) = S level /\ pntt p = fl /\ forall j, (j <= level)%nat -> inr (Qi pp j) (row (prows p) j).
  Definition wfct (level : nat) (fl : bool) (ct : ctT N) : Prop :=
    mwf ct /\ In id0 (keys ct) /\ forall id p, mget seq_dec ct id = Some p -> wfpoly level fl p.

  (** a set of secret keys: entry [id] is a key of that party; those of the parties in [I] stand for [s id] *)
  Definition keys_ok (I : string -> Prop) (s : string -> R) (sks : gomap string (secretKey N)) : Prop :=
    mwf sks /\ forall id k, mget seq_dec sks id = Some k -> sk_id k = id /\ (I id -> mval pp (maxLevel pp) (sk_val k) (fun _ => s id)).
  (** an iteration order of Go maps *)
  Definition ord1_ok (o : list string -> list string) : Prop := forall l, Permutation (o l) l.
End Spec.
