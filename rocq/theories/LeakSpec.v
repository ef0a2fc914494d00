(** C36: computations on published keys only (public key, relinearisation key, rotation key).
    Nothing here models library code: these are the attacker's programs. *)
From Verif Require Import Base NumTheory Negacyclic Ntt Word BasisExt Rows RlweModel SchemeSpec KeyGenModel.
Open Scope Z_scope.

(** the residue of x modulo m of least absolute value *)
Definition centre (m x : Z) : Z := let y := x mod m in if m <=? 2 * y then y - m else y.
(** Chinese remaindering of the (modulus, residue) pairs l, M being the product of the moduli *)
Definition crt (M : Z) (l : list (Z * Z)) : Z := fold_right (fun qr acc => snd qr * (M / fst qr) * invm (fst qr) (M / fst qr) + acc) 0 l.

Section Attack.
  Context {N : nat} (pp : rparams).
  Definition all_mi : list mi := map MQ (seq 0 (length (Qm pp))) ++ map MP (seq 0 (length (Pm pp))).
  Definition QPprod : Z := prodl (Qs pp ++ Ps pp).
  (** the small integer polynomial with the residues f i *)
  Definition lift_all (f : mi -> R N) : R N :=
    mkR (fun x => centre QPprod (crt QPprod (map (fun i => (qmod pp i, co (f i) x)) all_mi))).

  (** from the public key and the first digit of the relinearisation key: the error of the public key, then the secret modulo Q_j *)
  Definition pk_error (pk : publicKey N) (rlk : relinKey N) : R N :=
    let D := lift_all (fun i => sub (intt (md pp i) (fqp (nth 0 (rlk_b rlk) dQP) i)) (intt (md pp i) (fqp (pk0 pk) i))) in
    mkR (fun x => centre W (- co D x)).
  Definition attack_pk_rlk (j : nat) (pk : publicKey N) (rlk : relinKey N) : R N :=
    let m := Qi pp j in
    let t := ntt m (sub (pk_error pk rlk) (intt m (row (qpQ (pk0 pk)) j))) in
    let q := intt (N := N) m (mkR (fun x => co t x * invm (mq m) (co (row (qpQ (pk1 pk)) j) x))) in
    mkR (fun x => centre (mq m) (co q x)).

  (** from the first digits of the relinearisation key and of the rotation key for index 0 *)
  Definition attack_rlk_rot0 (rlk : relinKey N) (rk : rotKey N) : R N :=
    let dif i := sub (unM (md pp i) (fqp (nth 0 (rtk_val rk) dQP) i)) (unM (md pp i) (fqp (nth 0 (rlk_b rlk) dQP) i)) in
    let f : R N := mkR (fun x => centre (mq (Pi pp 0)) (co (dif (MP 0)) x)) in
    mkR (fun x => centre (mq (Qi pp 0)) (invm (mq (Qi pp 0)) (Pprod pp) * (co (dif (MQ 0)) x - co f x))).
End Attack.
