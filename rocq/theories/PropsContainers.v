(** C01, C02, C34: property theorems (statements + [exact]). *)
From Verif Require Import Base IdSetModel IdSetSpec IdSetProofs KeySetModel KeySetSpec KeySetProofs BitRev BitRevProofs.

(** C01. Every legal program on IDSet objects runs without panic, gives exactly the outputs of the
    specification machine on mathematical sets, and leaves objects that answer Has/Size like the sets.
    Independence of the copies is part of the specification step relation (an Add/Remove changes one object). *)
Theorem C01_idset_is_a_finite_set : forall (ord : order), order_ok ord -> forall ops, legal 0 ops ->
  exists H A outs, isrun ord 0 nil ops = Ok (H, outs) /\ srun nil ops A outs /\
    length H = length A /\
    forall h s S, nth_error H h = Some s -> nth_error A h = Some S ->
      (forall v, is_has s v = true <-> S v) /\ card S (is_size s) /\ ~ S id0.
Proof. exact idset_history. Qed.
Print Assumptions C01_idset_is_a_finite_set.

Theorem C01_add_reserved_panics : forall (ord : order) n H h, isstep ord n H (OAdd h id0) = Panic.
Proof. exact add_zero_panics. Qed.
Print Assumptions C01_add_reserved_panics.

(** C02. *)
Theorem C02_key_set_returns_last_key : forall (Key : Type) (kid : Key -> string) ops id,
  (forall k, ks_get (ks_run kid ops) id = Ok k <-> current kid ops id k) /\
  (ks_get (ks_run kid ops) id = Panic <-> ~ exists k, current kid ops id k).
Proof. exact @ks_history. Qed.
Print Assumptions C02_key_set_returns_last_key.

Theorem C02_relin_key_set_returns_last_key : forall (Key : Type) (kid : Key -> string) (Buf : Type) (blank : Buf) ops id,
  (forall k, rl_get (rl_run kid blank ops) id = Ok k <-> current kid ops id k) /\
  (rl_get (rl_run kid blank ops) id = Panic <-> ~ exists k, current kid ops id k).
Proof. exact @rl_history. Qed.
Print Assumptions C02_relin_key_set_returns_last_key.

(** every id with a key has both hoisting buffers (so MulRelinNew never dereferences a missing buffer) *)
Theorem C02_relin_key_set_has_buffers : forall (Key : Type) (kid : Key -> string) (Buf : Type) (blank : Buf) ops id k,
  current kid ops id k ->
  mget seq_dec (rp0 (rl_run kid blank ops)) id <> None /\ mget seq_dec (rp1 (rl_run kid blank ops)) id <> None.
Proof. exact @rl_buffers. Qed.
Print Assumptions C02_relin_key_set_has_buffers.

Theorem C02_rotation_key_set_returns_last_key : forall (Key : Type) (kid : Key -> string) (kidx : Key -> Z) ops id idx,
  (forall k, rk_get (rk_run kid kidx ops) id idx = Ok k <-> rcurrent kid kidx ops id idx k) /\
  (rk_get (rk_run kid kidx ops) id idx = Panic <-> ~ exists k, rcurrent kid kidx ops id idx k).
Proof. exact @rk_history. Qed.
Print Assumptions C02_rotation_key_set_returns_last_key.

(** C34. For N = 2^k and a slice of at least N elements. *)
Theorem C34_bit_reverse_permutes : forall (A : Type) k fuel (l : list A), k + 1 <= fuel -> 2 ^ k <= length l ->
  exists l', bit_reverse fuel (2 ^ k) l = Some (Ok l') /\ length l' = length l /\
    (forall i r, reversed_bits k i r -> nth_error l' r = nth_error l i) /\
    (forall p, 2 ^ k <= p -> nth_error l' p = nth_error l p).
Proof. exact @bit_reverse_ok. Qed.
Print Assumptions C34_bit_reverse_permutes.

Theorem C34_bit_reverse_involutive : forall (A : Type) k fuel (l l1 : list A), k + 1 <= fuel -> 2 ^ k <= length l ->
  bit_reverse fuel (2 ^ k) l = Some (Ok l1) -> bit_reverse fuel (2 ^ k) l1 = Some (Ok l).
Proof. exact @bit_reverse_twice. Qed.
Print Assumptions C34_bit_reverse_involutive.

(** For every other N >= 2 the loop never terminates (no amount of fuel suffices). *)
Theorem C34_other_sizes_diverge : forall (A : Type) N (l : list A) fuel,
  2 <= N -> (forall k, N <> 2 ^ k) -> N <= length l -> bit_reverse fuel N l = None.
Proof. exact @bit_reverse_diverges. Qed.
Print Assumptions C34_other_sizes_diverge.

(** ** Non-vacuity *)
Definition rev_order : order := fun n l => if Nat.even n then l else rev l.
Example rev_order_ok : order_ok rev_order.
Proof. intros n l. unfold rev_order. destruct (Nat.even n); [apply Permutation_refl|apply Permutation_sym, Permutation_rev]. Qed.
Example C01_legal_program :
  legal 0 [ONew; OAdd 0 "a"; ONew; OAdd 1 "b"; OUnion 0 1; ORemove 0 "a"; OInter 2 1; OHas 2 "a"; OSize 2; OHas 0 "a"].
Proof. cbn. unfold id0. repeat split; try lia; discriminate. Qed.
Example C01_program_outputs :
  rmap snd (isrun rev_order 0 nil [ONew; OAdd 0 "a"; ONew; OAdd 1 "b"; OUnion 0 1; ORemove 0 "a"; OInter 2 1;
                          OHas 2 "a"; OSize 2; OHas 0 "a"])
  = Ok [Handle 0; NoOut; Handle 1; NoOut; Handle 2; NoOut; Handle 3; Bool true; Num 2; Bool false].
Proof. reflexivity. Qed.
Example C02_history : current (fun k : string * nat => fst k)
  [KAdd ("a"%string, 1); KAdd ("b"%string, 2); KAdd ("a"%string, 3); KDel "b"%string] "a"%string ("a"%string, 3).
Proof.
  exists [KAdd ("a"%string, 1); KAdd ("b"%string, 2)], [KDel "b"%string]. repeat split; cbn; try tauto.
  - intros k' [H|[]]; discriminate.
  - intros [H|[]]; discriminate.
Qed.
Example C34_eight : bit_reverse 4 8 [0;1;2;3;4;5;6;7;8] = Some (Ok [0;4;2;6;1;5;3;7;8]).
Proof. reflexivity. Qed.
Example C34_three_is_not_a_power : 2 <= 3 /\ (forall k, 3 <> 2 ^ k) /\ 3 <= length [0;1;2].
Proof.
  repeat split; try (cbn; lia). intros [|[|k]]; cbn [Nat.pow]; try lia.
Qed.
