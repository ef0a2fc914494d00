(** uint64 arithmetic of the lattigo ring package (modular_reduction.go, prime arithmetic; a dependency that
    is not part of /repo) on which /repo/mkrlwe/basis_extension.go relies.  Written from the published lattigo v2
    sources; every operation wraps at 2^64 explicitly. *)
From Verif Require Import Base NumTheory Negacyclic Ntt.
From Coq Require Import Znumtheory Zpow_facts.
Open Scope Z_scope.

Definition W : Z := 2 ^ 64.
Definition w64 (x : Z) : Z := x mod W.

(** bits.Mul64, bits.Add64 *)
Definition mul_hi (x y : Z) : Z := (x * y) / W.
Definition mul_lo (x y : Z) : Z := (x * y) mod W.
Definition add_lo (x y : Z) : Z := (x + y) mod W.
Definition add_carry (x y : Z) : Z := (x + y) / W.

(** ring.CRed *)
Definition cred (a q : Z) : Z := if q <=? a then a - q else a.

(** ring.MRedParams: q^-1 mod 2^64 by 63 squarings *)
Fixpoint mred_loop (n : nat) (qinv q : Z) : Z :=
  match n with O => qinv | S n' => mred_loop n' (w64 (qinv * q)) (w64 (q * q)) end.
Definition mred_params (q : Z) : Z := mred_loop 63 1 q.

(** ring.MRed *)
Definition mred (x y q qinv : Z) : Z :=
  let mhi := mul_hi x y in let mlo := mul_lo x y in
  let hhi := mul_hi (w64 (mlo * qinv)) q in
  cred (w64 (mhi - hhi + q)) q.

(** ring.BRedParams: the two words of floor(2^128 / q) *)
Definition bred_params (q : Z) : Z * Z := let u := (W * W) / q in (u / W, u mod W).

(** ring.MForm *)
Definition mform (a q : Z) (u : Z * Z) : Z :=
  let mhi := mul_hi a (snd u) in
  cred (w64 (- w64 (a * fst u + mhi) * q)) q.

(** ring.BRed *)
Definition bred (x y q : Z) (u : Z * Z) : Z :=
  let ahi := mul_hi x y in let alo := mul_lo x y in
  let lhi := mul_hi alo (snd u) in
  let mhi := mul_hi alo (fst u) in let mlo := mul_lo alo (fst u) in
  let s0 := add_lo mlo lhi in let c := add_carry mlo lhi in
  let s1 := w64 (mhi + c) in
  let mhi' := mul_hi ahi (snd u) in let mlo' := mul_lo ahi (snd u) in
  let c' := add_carry mlo' s0 in
  let lhi' := w64 (mhi' + c') in
  let s := w64 (ahi * fst u + s1 + lhi') in
  cred (w64 (alo - s * q)) q.

(** square-and-multiply with a given modular product: ring.ModExp (BRed), ring.ModexpMontgomery (MRed).
    The Go loop shifts the exponent right until it is 0: it follows the binary digits. *)
Fixpoint powloop (mulf : Z -> Z -> Z) (e : positive) (x acc : Z) : Z :=
  match e with
  | xH => mulf acc x
  | xO e' => powloop mulf e' (mulf x x) acc
  | xI e' => powloop mulf e' (mulf x x) (mulf acc x)
  end.
Definition powz (mulf : Z -> Z -> Z) (e x acc : Z) : Z :=
  match e with Zpos p => powloop mulf p x acc | _ => acc end.
Definition mod_exp (x e q : Z) : Z := powz (fun a b => bred a b q (bred_params q)) e x 1.
Definition modexp_mont (x e q qinv : Z) (u : Z * Z) : Z := powz (fun a b => mred a b q qinv) e x (mform 1 q u).

(** ** Correctness *)
Lemma Wpos : 0 < W. Proof. reflexivity. Qed.

Lemma cred_ok a q : 0 <= a < 2 * q -> 0 <= cred a q < q /\ eqz q (cred a q) a.
Proof.
  intros H. unfold cred. destruct (Z.leb_spec q a).
  - split; [lia|]. exists (-1). lia.
  - split; [lia|]. reflexivity.
Qed.

Lemma mred_loop_pow n : forall k qi q q0, 0 <= k -> 0 <= q0 ->
  eqz W qi (q0 ^ (2 ^ k - 1)) -> eqz W q (q0 ^ (2 ^ k)) ->
  eqz W (mred_loop n qi q) (q0 ^ (2 ^ (k + Z.of_nat n) - 1)).
Proof.
  induction n as [|n IH]; intros k qi q q0 Hk H0 A B.
  - cbn [mred_loop]. rewrite Z.add_0_r. assumption.
  - cbn [mred_loop]. replace (k + Z.of_nat (S n)) with ((k + 1) + Z.of_nat n) by lia.
    assert (P : 0 < 2 ^ k) by (apply Z.pow_pos_nonneg; lia).
    assert (E2 : 2 ^ (k + 1) = 2 * 2 ^ k) by (rewrite Z.pow_add_r by lia; change (2 ^ 1) with 2; ring).
    apply IH; try lia.
    + unfold w64. rewrite eqz_mod, A, B, <- Z.pow_add_r by lia. apply eqz_eq. f_equal. lia.
    + unfold w64. rewrite eqz_mod, B, <- Z.pow_add_r by lia. apply eqz_eq. f_equal. lia.
Qed.

Lemma odd_pow2k q (k : nat) : Z.odd q = true -> (2 ^ (Z.of_nat k + 1) | q ^ (2 ^ Z.of_nat k) - 1).
Proof.
  intros O. induction k as [|k IH].
  - cbn. rewrite Z.mul_1_r. destruct (proj1 (Z.odd_spec q) O) as [c ->]. exists c. change (Z.pow_pos 2 1) with 2. lia.
  - destruct IH as [c IH].
    replace (2 ^ Z.of_nat (S k)) with (2 ^ Z.of_nat k * 2)
      by (rewrite Nat2Z.inj_succ, Z.pow_succ_r by lia; ring).
    rewrite Z.pow_mul_r by (try lia; apply Z.pow_nonneg; lia).
    set (x := q ^ 2 ^ Z.of_nat k) in *.
    replace (x ^ 2 - 1) with ((x - 1) * (x + 1)) by ring.
    replace (Z.of_nat (S k) + 1) with ((Z.of_nat k + 1) + 1) by lia. rewrite Z.pow_add_r by lia. change (2 ^ 1) with 2.
    exists (c * ((x + 1) / 2)).
    assert (E : x + 1 = 2 * ((x + 1) / 2)).
    { apply Z.div_exact; [lia|]. replace x with (1 + c * 2 ^ (Z.of_nat k + 1)) by lia.
      rewrite Z.pow_add_r by lia. change (2 ^ 1) with 2.
      replace (1 + c * (2 ^ Z.of_nat k * 2) + 1) with ((1 + c * 2 ^ Z.of_nat k) * 2) by ring. apply Z.mod_mul. lia. }
    rewrite IH, E at 1. ring.
Qed.

Theorem mred_params_ok q : 0 <= q -> Z.odd q = true -> eqz W (q * mred_params q) 1.
Proof.
  intros P O. unfold mred_params.
  rewrite (mred_loop_pow 63 0 1 q q).
  2,3: lia.
  2,3: apply eqz_eq; change (2 ^ 0) with 1; rewrite ?Z.pow_1_r; reflexivity.
  change (0 + Z.of_nat 63) with 63.
  rewrite <- (Z.pow_1_r q) at 1. rewrite <- Z.pow_add_r by lia.
  replace (1 + (2 ^ 63 - 1)) with (2 ^ Z.of_nat 63) by reflexivity.
  exact (odd_pow2k q 63 O).
Qed.

Lemma mred_loop_range n : forall qi q, 0 <= qi < W -> 0 <= mred_loop n qi q < W.
Proof.
  induction n as [|n IH]; intros qi q H; cbn [mred_loop]; [assumption|]. apply IH. unfold w64. apply Z.mod_pos_bound. apply Wpos.
Qed.
Lemma mred_params_range q : 0 <= mred_params q < W.
Proof. apply mred_loop_range. pose proof Wpos. unfold W. lia. Qed.

(** the exact quotient computed by the Montgomery trick *)
Lemma mont_quot S q qinv : 0 <= q -> eqz W (q * qinv) 1 ->
  W * (S / W - mul_hi (w64 (w64 S * qinv)) q) = S - w64 (w64 S * qinv) * q.
Proof.
  intros Hq I. set (t := w64 (w64 S * qinv)). pose proof Wpos as WP.
  assert (E : eqz W (t * q) S).
  { unfold t, w64. rewrite !eqz_mod. transitivity (S * (q * qinv)); [apply eqz_eq; ring|]. rewrite I. apply eqz_eq. ring. }
  apply eqz_iff in E; [|lia]. unfold mul_hi.
  pose proof (Z.div_mod S W ltac:(lia)). pose proof (Z.div_mod (t * q) W ltac:(lia)). lia.
Qed.

Theorem mred_ok x y q : 0 <= x -> 0 <= y -> 0 < q < 2 ^ 63 -> Z.odd q = true -> x * y < q * W ->
  0 <= mred x y q (mred_params q) < q /\ eqz q (W * mred x y q (mred_params q)) (x * y).
Proof.
  intros Hx Hy Hq O B. unfold mred. set (qi := mred_params q).
  pose proof (mred_params_ok q ltac:(lia) O) as I. fold qi in I.
  pose proof (mont_quot (x * y) q qi ltac:(lia) I) as M.
  set (t := w64 (w64 (x * y) * qi)) in *. fold (mul_lo x y) in *.
  change (w64 (x * y)) with (mul_lo x y) in t. fold t. change (x * y / W) with (mul_hi x y) in M.
  pose proof Wpos as WP.
  assert (T : 0 <= t < W) by (apply Z.mod_pos_bound; lia).
  set (d := mul_hi x y - mul_hi t q) in *.
  assert (XY : 0 <= x * y) by nia.
  assert (D : - q < d < q) by (split; nia).
  assert (E : w64 (d + q) = d + q) by (apply Z.mod_small; unfold W; lia).
  rewrite E. destruct (cred_ok (d + q) q ltac:(lia)) as [C1 C2]. split; [assumption|].
  rewrite C2. replace (W * (d + q)) with (W * d + W * q) by ring. rewrite M. exists (W - t). ring.
Qed.

Lemma u_split q : 0 < q -> fst (bred_params q) * W + snd (bred_params q) = W * W / q.
Proof. intros H. unfold bred_params. cbn [fst snd]. pose proof (Z.div_mod (W * W / q) W). unfold W in *. lia. Qed.
Lemma u_bound q : 1 < q -> 0 <= fst (bred_params q) < W /\ 0 <= snd (bred_params q) < W.
Proof.
  intros H. unfold bred_params. cbn [fst snd]. pose proof Wpos as WP.
  assert (0 <= W * W / q < W * W).
  { split; [apply Z.div_pos; lia|]. apply Z.div_lt; lia. }
  split; [split; [apply Z.div_pos; lia|apply Z.div_lt_upper_bound; lia]|apply Z.mod_pos_bound; lia].
Qed.

(** Barrett quotient: floor(A * floor(2^128/q) / 2^128) is floor(A/q) or one less *)
Lemma barrett A q : 0 < q -> 0 <= A < W * W ->
  0 <= A - (A * (W * W / q)) / (W * W) * q < 2 * q.
Proof.
  intros Hq HA. set (u := W * W / q). pose proof Wpos as WP.
  pose proof (Z.div_mod (W * W) q ltac:(lia)) as U. fold u in U. pose proof (Z.mod_pos_bound (W * W) q Hq) as UB.
  set (t := A * u / (W * W)).
  pose proof (Z.div_mod (A * u) (W * W) ltac:(nia)) as T. fold t in T. pose proof (Z.mod_pos_bound (A * u) (W * W) ltac:(nia)) as TB.
  set (r := (A * u) mod (W * W)) in *. set (s := (W * W) mod q) in *. set (B := W * W) in *.
  (* B*(A - t q) = A*B - q*(A u - r) = A*s + q r *)
  assert (E : B * (A - t * q) = A * s + q * r) by nia.
  assert (0 < B) by nia.
  split; [nia|]. assert (A * s + q * r < B * (2 * q)); [|nia]. nia.
Qed.

Theorem mform_ok a q : 0 <= a < W -> 1 < q < 2 ^ 63 ->
  0 <= mform a q (bred_params q) < q /\ eqz q (mform a q (bred_params q)) (a * W).
Proof.
  intros Ha Hq. unfold mform. pose proof Wpos as WP. pose proof (u_split q ltac:(lia)) as US. pose proof (u_bound q ltac:(lia)) as [U0 U1].
  set (u0 := fst (bred_params q)) in *. set (u1 := snd (bred_params q)) in *.
  set (t := a * u0 + mul_hi a u1).
  assert (T : t = (a * W) * (W * W / q) / (W * W)).
  { rewrite <- US. unfold t, mul_hi.
    replace (a * W * (u0 * W + u1)) with (W * ((a * u0) * W + a * u1)) by ring.
    rewrite Z.div_mul_cancel_l by lia. rewrite Z.div_add_l by lia. reflexivity. }
  pose proof (barrett (a * W) q ltac:(lia) ltac:(nia)) as Bt. rewrite <- T in Bt.
  assert (E : w64 (- w64 t * q) = a * W - t * q).
  { unfold w64. rewrite <- (Z.mod_small (a * W - t * q) W) by (unfold W in *; lia).
    apply eqz_iff; [lia|]. rewrite eqz_mod. exists (- a). ring. }
  rewrite E. destruct (cred_ok (a * W - t * q) q Bt) as [C1 C2]. split; [assumption|].
  rewrite C2. exists (- t). ring.
Qed.

Theorem bred_ok x y q : 0 <= x < W -> 0 <= y < W -> 1 < q < 2 ^ 63 -> bred x y q (bred_params q) = (x * y) mod q.
Proof.
  intros Hx Hy Hq. unfold bred. pose proof Wpos as WP. pose proof (u_split q ltac:(lia)) as US. pose proof (u_bound q ltac:(lia)) as [U0 U1].
  set (u0 := fst (bred_params q)) in *. set (u1 := snd (bred_params q)) in *.
  set (A := x * y). assert (HA : 0 <= A < W * W) by (unfold A; nia).
  unfold mul_hi, mul_lo, add_lo, add_carry. fold A.
  set (ahi := A / W). set (alo := A mod W).
  assert (EA : A = ahi * W + alo) by (unfold ahi, alo; pose proof (Z.div_mod A W); lia).
  assert (AL : 0 <= alo < W) by (apply Z.mod_pos_bound; lia).
  assert (AH : 0 <= ahi < W) by (split; [apply Z.div_pos; lia|apply Z.div_lt_upper_bound; nia]).
  set (s0 := ((alo * u0) mod W + alo * u1 / W) mod W).
  set (c := ((alo * u0) mod W + alo * u1 / W) / W).
  set (c' := ((ahi * u1) mod W + s0) / W).
  set (s := w64 (ahi * u0 + w64 (alo * u0 / W + c) + w64 (ahi * u1 / W + c'))).
  set (t := A * (W * W / q) / (W * W)).
  assert (T : t = ahi * u0 + (alo * u0 / W + c) + (ahi * u1 / W + c')).
  { unfold t. rewrite <- US, EA.
    assert (M1 := Z.div_mod (alo * u1) W ltac:(lia)). assert (B1 := Z.mod_pos_bound (alo * u1) W ltac:(lia)).
    assert (M2 := Z.div_mod (alo * u0) W ltac:(lia)). 
    assert (M3 := Z.div_mod ((alo * u0) mod W + alo * u1 / W) W ltac:(lia)). fold s0 c in M3.
    assert (M4 := Z.div_mod (ahi * u1) W ltac:(lia)).
    assert (M5 := Z.div_mod ((ahi * u1) mod W + s0) W ltac:(lia)). fold c' in M5. assert (B5 := Z.mod_pos_bound ((ahi * u1) mod W + s0) W ltac:(lia)).
    set (r1 := (alo * u1) mod W) in *. set (r5 := ((ahi * u1) mod W + s0) mod W) in *.
    symmetry. apply (Z.div_unique _ (W * W) _ (r5 * W + r1)); [left; nia|].
    nia. }
  assert (SS : eqz W s t).
  { unfold s, w64. rewrite T. rewrite !eqz_mod. reflexivity. }
  pose proof (barrett A q ltac:(lia) HA) as Bt. fold t in Bt.
  assert (E : w64 (alo - s * q) = A - t * q).
  { unfold w64. rewrite <- (Z.mod_small (A - t * q) W) by (unfold W in *; lia).
    apply eqz_iff; [lia|]. rewrite SS. unfold alo. rewrite eqz_mod. reflexivity. }
  rewrite E. destruct (cred_ok (A - t * q) q Bt) as [C1 C2].
  apply (Z.mod_unique _ _ ((A - cred (A - t * q) q) / q)); [left; assumption|].
  assert (D : (q | A - cred (A - t * q) q)).
  { apply eqz_sym in C2. destruct C2 as [k C2]. exists (t + k). lia. }
  destruct D as [k D]. rewrite D, Z.div_mul by lia. lia.
Qed.

(** square and multiply is exponentiation, for any modular product *)
Lemma powloop_ok q (dom : Z -> Prop) (sem : Z -> Z) (mulf : Z -> Z -> Z)
  (MD : forall a b, dom a -> dom b -> dom (mulf a b) /\ eqz q (sem (mulf a b)) (sem a * sem b)) e :
  forall x acc, dom x -> dom acc ->
  dom (powloop mulf e x acc) /\ eqz q (sem (powloop mulf e x acc)) (sem acc * sem x ^ Zpos e).
Proof.
  induction e as [e IH|e IH|]; intros x acc Dx Da; cbn [powloop].
  - destruct (MD x x Dx Dx) as [D1 E1]. destruct (MD acc x Da Dx) as [D2 E2].
    destruct (IH _ _ D1 D2) as [D3 E3]. split; [assumption|].
    rewrite E3, E2. rewrite Pos2Z.inj_xI.
    rewrite Z.pow_add_r, Z.pow_1_r, Z.pow_mul_r by lia.
    rewrite (eqz_pow q (sem (mulf x x)) (sem x ^ 2) (Zpos e)); [apply eqz_eq; ring|lia|].
    rewrite E1. apply eqz_eq. ring.
  - destruct (MD x x Dx Dx) as [D1 E1].
    destruct (IH _ _ D1 Da) as [D3 E3]. split; [assumption|].
    rewrite E3. rewrite (Pos2Z.inj_xO e). rewrite Z.pow_mul_r by lia.
    rewrite (eqz_pow q (sem (mulf x x)) (sem x ^ 2) (Zpos e)); [reflexivity|lia|].
    rewrite E1. apply eqz_eq. ring.
  - destruct (MD acc x Da Dx) as [D1 E1]. split; [assumption|]. rewrite E1, Z.pow_1_r. reflexivity.
Qed.

Theorem mod_exp_ok x e q : 0 <= x < W -> 0 < e -> 1 < q < 2 ^ 63 -> mod_exp x e q = x ^ e mod q.
Proof.
  intros Hx He Hq. unfold mod_exp. destruct e as [|e|e]; try lia. cbn [powz].
  destruct (powloop_ok q (fun a => 0 <= a < W) (fun a => a) (fun a b => bred a b q (bred_params q))) with (e := e) (x := x) (acc := 1) as [D E].
  - intros a b Ha Hb. rewrite bred_ok by assumption. split; [|apply eqz_mod].
    pose proof (Z.mod_pos_bound (a * b) q ltac:(lia)). unfold W in *. lia.
  - assumption.
  - unfold W. lia.
  - rewrite Z.mul_1_l in E.
    (* the result is itself a residue *)
    assert (RNG : forall e x acc, 0 <= x < W -> 0 <= acc < W -> 0 <= powloop (fun a b => bred a b q (bred_params q)) e x acc < q).
    { assert (BR : forall a b, 0 <= a < W -> 0 <= b < W -> 0 <= bred a b q (bred_params q) < q /\ 0 <= bred a b q (bred_params q) < W).
      { intros a b Ha Hb. rewrite bred_ok by assumption. pose proof (Z.mod_pos_bound (a * b) q ltac:(lia)). unfold W in *. lia. }
      clear -BR. induction e as [e IH|e IH|]; intros x acc Hx Ha; cbn [powloop].
      - apply IH; apply BR; assumption.
      - apply IH; [apply BR; assumption|assumption].
      - apply BR; assumption. }
    apply eqz_iff in E; [|lia]. rewrite <- E. symmetry. apply Z.mod_small. apply RNG; [assumption|unfold W; lia].
Qed.

Lemma W_nd q : prime q -> 2 < q -> ~ (q | W).
Proof.
  intros P Q D. unfold W in D. apply (prime_power_prime q 2 64) in D; try lia; try assumption; try apply prime_2.
Qed.

(** [modexp_mont] keeps Montgomery form: if x represents a (x = a W) then the result represents a^e *)
Theorem modexp_mont_ok x a e q : 0 <= x < q -> eqz q x (a * W) -> 0 < e -> prime q -> 2 < q < 2 ^ 63 ->
  0 <= modexp_mont x e q (mred_params q) (bred_params q) < q /\
  eqz q (modexp_mont x e q (mred_params q) (bred_params q)) (a ^ e * W).
Proof.
  intros Hx EX He P Hq. unfold modexp_mont. destruct e as [|e|e]; try lia. cbn [powz].
  assert (O : Z.odd q = true).
  { destruct (Z.odd q) eqn:O; [reflexivity|]. exfalso. rewrite <- Z.negb_even in O. apply Bool.negb_false_iff in O.
    apply Z.even_spec in O. destruct O as [k O].
    destruct (prime_divisors q P 2) as [H|[H|[H|H]]]; try lia. exists k. lia. }
  assert (G : Z.gcd W q = 1) by (apply prime_gcd; [assumption|apply W_nd; [assumption|lia]]).
  set (wi := invm q W). assert (WI : eqz q (W * wi) 1) by (apply invm_eqz; [assumption|apply W_nd; [assumption|lia]]).
  destruct (powloop_ok q (fun v => 0 <= v < q) (fun v => v * wi) (fun a b => mred a b q (mred_params q))) with (e := e) (x := x) (acc := mform 1 q (bred_params q)) as [D E].
  - intros v w Hv Hw. destruct (mred_ok v w q ltac:(lia) ltac:(lia) ltac:(lia) O) as [R1 R2]; [unfold W; nia|]. split; [assumption|].
    transitivity (mred v w q (mred_params q) * wi * (W * wi)); [rewrite WI; apply eqz_eq; ring|].
    transitivity (W * mred v w q (mred_params q) * (wi * wi)); [apply eqz_eq; ring|]. rewrite R2. apply eqz_eq. ring.
  - assumption.
  - apply mform_ok; unfold W; lia.
  - split; [assumption|].
    destruct (mform_ok 1 q ltac:(unfold W; lia) ltac:(lia)) as [_ M1].
    set (r := powloop _ e x _) in *.
    transitivity (r * wi * W); [transitivity (r * (W * wi)); [rewrite WI; apply eqz_eq; ring|apply eqz_eq; ring]|].
    rewrite E, M1. rewrite Z.mul_1_l, WI, Z.mul_1_l. apply eqz_mul; [|reflexivity]. apply eqz_pow; [lia|].
    rewrite EX. transitivity (a * (W * wi)); [apply eqz_eq; ring|]. rewrite WI. apply eqz_eq. ring.
Qed.

Global Arguments mred_params : simpl never.
Global Arguments bred_params : simpl never.
Global Arguments mred : simpl never.
Global Arguments mform : simpl never.
Global Arguments bred : simpl never.
Global Arguments mod_exp : simpl never.
Global Arguments modexp_mont : simpl never.
Global Arguments w64 : simpl never.
Global Arguments mul_hi : simpl never.
Global Arguments mul_lo : simpl never.
Global Arguments W : simpl never.
