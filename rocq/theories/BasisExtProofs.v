(** Proofs about the model of basis_extension.go. *)
From Verif Require Import Base NumTheory Negacyclic Ntt Word FloatModel FloatProofs BasisExt.
From Coq Require Import Znumtheory.
Open Scope Z_scope.

(** what lattigo's parameter generation guarantees for every modulus *)
Definition okq (q : Z) : Prop := prime q /\ 2 < q < 2 ^ 61.

Lemma okq_odd q : okq q -> Z.odd q = true.
Proof.
  intros [P H]. destruct (Z.odd q) eqn:O; [reflexivity|]. exfalso.
  rewrite <- Z.negb_even in O. apply Bool.negb_false_iff in O. apply Z.even_spec in O. destruct O as [k O].
  destruct (prime_divisors q P 2) as [K|[K|[K|K]]]; try lia. exists k. lia.
Qed.
Lemma okq_W q : okq q -> Z.gcd W q = 1.
Proof. intros [P H]. apply prime_gcd; [assumption|]. apply W_nd; [assumption|lia]. Qed.
Lemma okq_lt q : okq q -> 2 < q < W.
Proof. intros [P H]. unfold W. lia. Qed.

(** MRed with one operand in Montgomery form is a modular product *)
Lemma mred_mont x y z q : okq q -> 0 <= x < W -> 0 <= y < q -> eqz q y (z * W) ->
  0 <= mred x y q (mred_params q) < q /\ eqz q (mred x y q (mred_params q)) (x * z).
Proof.
  intros K Hx Hy E. destruct (mred_ok x y q) as [B C]; try lia.
  - destruct K. lia.
  - apply okq_odd; assumption.
  - pose proof (okq_lt q K). nia.
  - split; [assumption|]. apply (eqz_cancel q W); [apply okq_W; assumption|]. rewrite C, E. apply eqz_eq. ring.
Qed.
Lemma mform_mont a q : okq q -> 0 <= a < W ->
  0 <= mform a q (bred_params q) < q /\ eqz q (mform a q (bred_params q)) (a * W).
Proof. intros [P H] Ha. apply mform_ok; lia. Qed.

Definition others {A} (i : nat) (l : list A) : list A := firstn i l ++ skipn (S i) l.

Lemma others_S {A} i (x : A) l : others (S i) (x :: l) = x :: others i l.
Proof. reflexivity. Qed.
Lemma others_0 {A} (x : A) l : others O (x :: l) = l.
Proof. reflexivity. Qed.

Lemma star_gen p i Q : okq p -> Forall (fun q => 0 <= q < W) Q -> forall k acc, 0 <= acc < p ->
  let r := fold_left (fun acc jq => if (fst jq =? i)%nat then acc
                           else mred acc (mform (snd jq) p (bred_params p)) p (mred_params p))
            (combine (seq k (length Q)) Q) acc in
  0 <= r < p /\ eqz p r (acc * prodl (if (k <=? i)%nat then others (i - k) Q else Q)).
Proof.
  intros K F. induction F as [|q Q Hq F IH]; intros k acc Ha; cbn [length seq combine fold_left].
  - split; [assumption|]. destruct (k <=? i)%nat; unfold others; rewrite ?firstn_nil, ?skipn_nil; cbn [app prodl]; apply eqz_eq; ring.
  - cbn [fst snd]. pose proof (okq_lt p K) as PL.
    destruct (mform_mont q p K Hq) as [M1 M2].
    destruct (mred_mont acc _ q p K ltac:(lia) M1 M2) as [R1 R2].
    destruct (Nat.eqb_spec k i) as [->|D].
    + destruct (IH (S i) acc Ha) as [B E]. split; [assumption|]. rewrite E.
      destruct (Nat.leb_spec (S i) i); [lia|]. rewrite Nat.leb_refl, Nat.sub_diag. unfold others. cbn [firstn skipn app]. reflexivity.
    + destruct (IH (S k) _ R1) as [B E]. split; [assumption|]. rewrite E, R2.
      destruct (Nat.leb_spec (S k) i), (Nat.leb_spec k i); try lia.
      * replace (i - k)%nat with (S (i - S k)) by lia. unfold others. cbn [firstn skipn app prodl]. apply eqz_eq. ring.
      * cbn [prodl]. apply eqz_eq. ring.
Qed.
Lemma star_ok p i Q acc : okq p -> Forall (fun q => 0 <= q < W) Q -> 0 <= acc < p ->
  0 <= star_loop p i Q acc < p /\ eqz p (star_loop p i Q acc) (acc * prodl (others i Q)).
Proof.
  intros K F H. pose proof (star_gen p i Q K F 0 acc H) as S. cbv zeta in S.
  replace (0 <=? i)%nat with true in S by (symmetry; apply Nat.leb_le; lia). rewrite Nat.sub_0_r in S. exact S.
Qed.
Lemma prod_loop_gen p Q : okq p -> Forall (fun q => 0 <= q < W) Q -> forall acc, 0 <= acc < p ->
  let r := fold_left (fun acc q => mred acc (mform q p (bred_params p)) p (mred_params p)) Q acc in
  0 <= r < p /\ eqz p r (acc * prodl Q).
Proof.
  intros K F. induction F as [|q Q Hq F IH]; intros acc Ha; cbn [fold_left prodl].
  - split; [assumption|apply eqz_eq; ring].
  - pose proof (okq_lt p K) as PL. destruct (mform_mont q p K Hq) as [M1 M2].
    destruct (mred_mont acc _ q p K ltac:(lia) M1 M2) as [R1 R2].
    destruct (IH _ R1) as [B E]. split; [assumption|]. rewrite E, R2. apply eqz_eq. ring.
Qed.

Lemma vlist_len n v p acc : length (vlist n v p acc) = S n.
Proof. revert acc. induction n as [|n IH]; intros acc; cbn; [reflexivity|]. rewrite IH. reflexivity. Qed.
Lemma vlist_ok n : forall v p acc i, 0 < p < 2 ^ 62 -> 0 <= v <= p -> 0 <= acc < p -> (i <= n)%nat ->
  0 <= nth i (vlist n v p acc) 0 < p /\ eqz p (nth i (vlist n v p acc) 0) (acc + Z.of_nat i * v).
Proof.
  induction n as [|n IH]; intros v p acc i Hp Hv Ha Hi.
  - replace i with O by lia. cbn [vlist nth]. split; [assumption|]. apply eqz_eq. lia.
  - destruct i as [|i].
    + cbn [vlist nth]. split; [assumption|]. apply eqz_eq. lia.
    + cbn [vlist nth].
      assert (E : w64 (acc + v) = acc + v) by (apply Z.mod_small; unfold W; lia). rewrite E.
      destruct (cred_ok (acc + v) p ltac:(lia)) as [C1 C2].
      destruct (IH v p _ i Hp Hv C1 ltac:(lia)) as [B D]. split; [assumption|]. rewrite D, C2. apply eqz_eq. lia.
Qed.

(** ** the tables (C07) *)
Lemma nth_combine_seq {A} (l : list A) d k i : (i < length l)%nat -> nth i (combine (seq k (length l)) l) (O, d) = ((k + i)%nat, nth i l d).
Proof. intros H. rewrite combine_nth by apply seq_length. rewrite seq_nth by assumption. reflexivity. Qed.
Lemma nth_map' {A B} (f : A -> B) l i d d' : (i < length l)%nat -> nth i (map f l) d' = f (nth i l d).
Proof. intros H. rewrite (nth_indep _ d' (f d)) by (rewrite map_length; assumption). apply map_nth. Qed.

Definition okbase (Q : list Z) : Prop := NoDup Q /\ Forall okq Q.

Lemma okbase_W Q : Forall okq Q -> Forall (fun q => 0 <= q < W) Q.
Proof. apply Forall_impl. intros q K. pose proof (okq_lt q K). lia. Qed.

Lemma others_split {A} (i : nat) (l : list A) d : (i < length l)%nat -> Permutation l (nth i l d :: others i l).
Proof.
  revert i. induction l as [|x l IH]; intros i H; cbn in H; [lia|]. destruct i as [|i]; [reflexivity|].
  unfold others. cbn [nth firstn skipn app]. rewrite perm_swap. constructor. apply IH. lia.
Qed.
Lemma others_in {A} (i : nat) (l : list A) x : In x (others i l) -> In x l.
Proof.
  unfold others. intros H. apply in_app_or in H. destruct H as [H|H].
  - rewrite <- (firstn_skipn i l). apply in_or_app. left. assumption.
  - rewrite <- (firstn_skipn (S i) l). apply in_or_app. right. assumption.
Qed.
Lemma others_prod i Q : (i < length Q)%nat -> prodl Q = nth i Q 0 * prodl (others i Q).
Proof. intros H. rewrite (prodl_perm _ _ (others_split i Q 0 H)). reflexivity. Qed.
Lemma others_quot i Q : Forall okq Q -> (i < length Q)%nat -> prodl Q / nth i Q 0 = prodl (others i Q).
Proof.
  intros F H. rewrite (others_prod i Q H), Z.mul_comm. apply Z.div_mul.
  pose proof (proj1 (Forall_forall _ _) F (nth i Q 0) (nth_In _ _ H)) as [_ B]. lia.
Qed.
Lemma others_coprime i Q : okbase Q -> (i < length Q)%nat -> ~ (nth i Q 0 | prodl (others i Q)).
Proof.
  intros [ND F] H. pose proof (proj1 (Forall_forall _ _) F) as FF.
  apply prime_divide_prodl.
  - apply FF. apply nth_In. assumption.
  - intros x Hx. apply FF. apply (others_in i). assumption.
  - intros I. pose proof (Permutation_NoDup (others_split i Q 0 H) ND) as ND2. inversion ND2; contradiction.
Qed.

Lemma inv_len Q P : length (qoverqiinvqi (basisextenderparameters Q P)) = length Q.
Proof. cbn [qoverqiinvqi basisextenderparameters]. rewrite map_length, combine_length, seq_length, Nat.min_id. reflexivity. Qed.

Theorem qoverqiinvqi_ok Q P i : okbase Q -> (i < length Q)%nat ->
  let q := nth i Q 0 in let t := nth i (qoverqiinvqi (basisextenderparameters Q P)) 0 in
  0 <= t < q /\ exists c, eqz q t (c * W) /\ eqz q (c * prodl (others i Q)) 1.
Proof.
  intros OKB H q t. pose proof OKB as [ND F].
  assert (K : okq q) by (apply (proj1 (Forall_forall _ _) F); apply nth_In; assumption).
  unfold t. cbn [qoverqiinvqi basisextenderparameters].
  rewrite (nth_map' _ _ _ (O, 0)) by (rewrite combine_length, seq_length, Nat.min_id; assumption).
  rewrite nth_combine_seq by assumption. cbn [plus]. fold q.
  pose proof (okq_lt q K) as QL.
  destruct (mform_mont 1 q K ltac:(unfold W; lia)) as [M1 M2].
  destruct (star_ok q i Q _ K (okbase_W Q F) M1) as [S1 S2].
  assert (S3 : eqz q (star_loop q i Q (mform 1 q (bred_params q))) (prodl (others i Q) * W)).
  { rewrite S2, M2. apply eqz_eq. ring. }
  destruct K as [Pq Bq].
  destruct (modexp_mont_ok _ _ (q - 2) q S1 S3 ltac:(lia) Pq ltac:(lia)) as [E1 E2].
  split; [assumption|]. exists (prodl (others i Q) ^ (q - 2)). split; [assumption|].
  pose proof (invm_eqz q (prodl (others i Q)) Pq (others_coprime i Q OKB H)) as I.
  rewrite <- I, Z.mul_comm. apply eqz_mul; [reflexivity|]. unfold invm. rewrite powm_ok by lia. symmetry. apply eqz_mod.
Qed.

Theorem qoverqimodp_ok Q P i j : Forall okq Q -> Forall okq P -> (i < length Q)%nat -> (j < length P)%nat ->
  let p := nth j P 0 in let t := nth i (nth j (qoverqimodp (basisextenderparameters Q P)) nil) 0 in
  0 <= t < p /\ eqz p t (W * prodl (others i Q)).
Proof.
  intros F G Hi Hj p t. assert (K : okq p) by (apply (proj1 (Forall_forall _ _) G); apply nth_In; assumption).
  unfold t. cbn [qoverqimodp basisextenderparameters].
  rewrite (nth_map' _ _ _ 0) by assumption. fold p.
  rewrite (nth_map' _ _ _ O) by (rewrite seq_length; assumption). rewrite seq_nth by assumption. cbn [plus].
  pose proof (okq_lt p K) as PL.
  destruct (star_ok p i Q 1 K (okbase_W Q F) ltac:(lia)) as [S1 S2].
  destruct (mform_mont _ p K ltac:(split; [apply S1|lia])) as [M1 M2]. split; [assumption|]. rewrite M2, S2. apply eqz_eq. ring.
Qed.

Theorem vtimesqmodp_ok Q P j v : Forall okq Q -> Forall okq P -> (j < length P)%nat -> (v <= length Q)%nat ->
  let p := nth j P 0 in let t := nth v (nth j (vtimesqmodp (basisextenderparameters Q P)) nil) 0 in
  0 <= t < p /\ eqz p t (- (Z.of_nat v * prodl Q)).
Proof.
  intros F G Hj Hv p t. assert (K : okq p) by (apply (proj1 (Forall_forall _ _) G); apply nth_In; assumption).
  unfold t. cbn [vtimesqmodp basisextenderparameters].
  rewrite (nth_map' _ _ _ 0) by assumption. fold p.
  pose proof (okq_lt p K) as PL.
  destruct (prod_loop_gen p Q K (okbase_W Q F) 1 ltac:(lia)) as [S1 S2]. fold (prod_loop p Q) in S1, S2.
  assert (E : w64 (p - prod_loop p Q) = p - prod_loop p Q) by (apply Z.mod_small; lia).
  destruct K as [_ B].
  destruct (vlist_ok (length Q) (w64 (p - prod_loop p Q)) p 0 v) as [V1 V2]; try lia.
  split; [assumption|]. rewrite V2, E. rewrite Z.add_0_l.
  rewrite Z.mul_1_l in S2. rewrite S2. exists (Z.of_nat v). ring.
Qed.

Lemma vt_len Q P j : (j < length P)%nat -> length (nth j (vtimesqmodp (basisextenderparameters Q P)) nil) = S (length Q).
Proof.
  intros Hj. cbn [vtimesqmodp basisextenderparameters]. rewrite (nth_map' _ _ _ 0) by assumption. apply vlist_len.
Qed.
Lemma qo_len Q P j : (j < length P)%nat -> length (nth j (qoverqimodp (basisextenderparameters Q P)) nil) = length Q.
Proof.
  intros Hj. cbn [qoverqimodp basisextenderparameters]. rewrite (nth_map' _ _ _ 0) by assumption. rewrite map_length, seq_length. reflexivity.
Qed.
Lemma idx_nth {A} (l : list A) i d : (i < length l)%nat -> idx l i = Ok (nth i l d).
Proof. intros H. unfold idx. rewrite (nth_error_nth' l d H). reflexivity. Qed.

(** ** multiply-accumulate *)
Fixpoint dot (l : list (Z * Z)) : Z := match l with nil => 0 | (y, m) :: t => y * m + dot t end.

Lemma ms_fold l : Forall (fun ym => 0 <= fst ym /\ 0 <= snd ym) l -> forall lo hi, 0 <= lo < W -> 0 <= hi ->
  lo + W * hi + dot l < W * W ->
  fold_left ms_step l (lo, hi) = ((lo + W * hi + dot l) mod W, (lo + W * hi + dot l) / W).
Proof.
  pose proof Wpos as WP.
  induction 1 as [|[y m] l [Hy Hm] F IH]; intros lo hi Hlo Hhi B; cbn [dot fold_left fst snd] in *.
  - rewrite Z.add_0_r. rewrite Z.mul_comm, Z.mod_add, Z.div_add by lia.
    rewrite Z.mod_small, Z.div_small by lia. reflexivity.
  - assert (D : 0 <= dot l).
    { clear -F. induction F as [|[y m] l [A B] _ IH]; cbn in *; nia. }
    assert (YM : 0 <= y * m) by nia.
    cbn [ms_step]. unfold add_lo, add_carry, mul_lo, mul_hi.
    set (T := y * m) in *.
    pose proof (Z.div_mod T W ltac:(lia)) as M1. pose proof (Z.mod_pos_bound T W WP) as B1.
    set (t0 := T mod W) in *. set (t1 := T / W) in *.
    pose proof (Z.div_mod (lo + t0) W ltac:(lia)) as M2. pose proof (Z.mod_pos_bound (lo + t0) W WP) as B2.
    set (s0 := (lo + t0) mod W) in *. set (s1 := (lo + t0) / W) in *.
    assert (0 <= t1) by (apply Z.div_pos; lia). assert (0 <= s1) by (apply Z.div_pos; lia).
    assert (EQ : s0 + W * (hi + (t1 + s1)) = lo + W * hi + T) by lia.
    assert (HB : hi + (t1 + s1) < W) by nia.
    assert (E1 : w64 (t1 + s1) = t1 + s1) by (apply Z.mod_small; lia). rewrite E1.
    assert (E2 : w64 (hi + (t1 + s1)) = hi + (t1 + s1)) by (apply Z.mod_small; lia). rewrite E2.
    rewrite IH; [|assumption|lia|lia]. rewrite EQ. f_equal; f_equal; lia.
Qed.

Lemma dot_bound A B l : 0 <= A -> 0 <= B -> Forall (fun ym => 0 <= fst ym <= A /\ 0 <= snd ym <= B) l ->
  0 <= dot l <= Z.of_nat (length l) * (A * B).
Proof.
  intros HA HB. induction 1 as [|[y m] l [H1 H2] F IH]; cbn [dot length fst snd] in *; [lia|].
  rewrite Nat2Z.inj_succ. split; nia.
Qed.

Theorem multSum_ok y qo vt v p : okq p -> (length y <= 32)%nat ->
  Forall (fun ym => 0 <= fst ym < 2 ^ 61 /\ 0 <= snd ym < p) (combine y qo) ->
  0 <= v -> (Z.to_nat v < length vt)%nat -> 0 <= nth (Z.to_nat v) vt 0 < p ->
  exists r, multSum y v p vt qo = Ok r /\ 0 <= r < 6 * p /\
            eqz p (W * r) (dot (combine y qo) + W * nth (Z.to_nat v) vt 0).
Proof.
  intros K L F Hv HL HV. unfold multSum. pose proof (okq_lt p K) as PL. pose proof Wpos as WP.
  set (l := combine y qo) in *. set (t := nth (Z.to_nat v) vt 0) in *.
  assert (LL : (length l <= 32)%nat) by (unfold l; rewrite combine_length; lia).
  pose proof (dot_bound (2 ^ 61) p l ltac:(lia) ltac:(lia)) as D.
  assert (D1 : 0 <= dot l <= Z.of_nat (length l) * (2 ^ 61 * p)).
  { apply D. revert F. apply Forall_impl. intros [a b]; cbn; lia. }
  assert (D2 : dot l <= 2 ^ 66 * p) by (change (2 ^ 66) with (32 * 2 ^ 61); nia).
  destruct K as [PP PB].
  rewrite ms_fold; [| |unfold W; lia|lia|].
  2:{ revert F. apply Forall_impl. intros [a b]; cbn; lia. }
  2:{ unfold W in *. nia. }
  rewrite Z.mul_0_r, !Z.add_0_l. rewrite (idx_nth vt _ 0 HL). cbn [rbind].
  fold t. set (S := dot l) in *.
  pose proof (mred_params_ok p ltac:(lia) (okq_odd p (conj PP PB))) as I.
  pose proof (mont_quot S p (mred_params p) ltac:(lia) I) as M.
  change (S mod W) with (w64 S). set (tt := w64 (w64 S * mred_params p)) in *.
  set (d := S / W - mul_hi tt p) in *.
  assert (T : 0 <= tt < W) by (apply Z.mod_pos_bound; lia).
  assert (DB : - p < d < 4 * p + 1).
  { split; [nia|]. assert (W * d <= W * (4 * p)); [|nia]. rewrite M. unfold W in *. nia. }
  assert (DB2 : d <= 4 * p) by lia.
  exists (d + p + t). split; [|split].
  - f_equal. apply Z.mod_small. unfold W. lia.
  - lia.
  - replace (W * (d + p + t)) with (W * d + W * p + W * t) by ring. rewrite M. exists (W - tt). ring.
Qed.

(** ** reconstruction *)
Lemma qprod_prodl y Q : length y = length Q -> qprod (combine y Q) = prodl Q.
Proof.
  revert Q. induction y as [|a y IH]; intros [|q Q] H; cbn in *; try lia. rewrite <- IH by lia. reflexivity.
Qed.

Lemma dot_crt p : forall Q y qo c, length y = length Q -> length qo = length Q ->
  (forall i, (i < length Q)%nat -> eqz p (nth i qo 0) (c * prodl (others i Q))) ->
  eqz p (dot (combine y qo)) (c * crt_num (combine y Q)).
Proof.
  induction Q as [|q Q IH]; intros [|a y] [|b qo] c L1 L2 H; cbn in L1, L2; try lia.
  - cbn. apply eqz_eq. ring.
  - cbn [combine dot crt_num]. rewrite qprod_prodl by lia.
    rewrite (IH y qo (c * q)) by (try lia; intros i Hi; specialize (H (S i) ltac:(cbn; lia)); rewrite others_S in H; cbn [nth prodl] in H; rewrite H; apply eqz_eq; ring).
    specialize (H O ltac:(cbn; lia)). cbn [nth] in H. rewrite H. unfold others. cbn [firstn skipn app]. apply eqz_eq. ring.
Qed.

(* modulo q_i only the i-th term of the CRT sum survives *)
Lemma crt_num_mod : forall Q y i, length y = length Q -> (i < length Q)%nat ->
  eqz (nth i Q 0) (crt_num (combine y Q)) (nth i y 0 * prodl (others i Q)).
Proof.
  induction Q as [|q Q IH]; intros [|a y] i L H; cbn in L, H; try lia.
  cbn [combine crt_num]. rewrite qprod_prodl by lia. destruct i as [|i].
  - cbn [nth]. unfold others. cbn [firstn skipn app]. exists (crt_num (combine y Q)). ring.
  - cbn [nth]. specialize (IH y i ltac:(lia) ltac:(lia)). destruct IH as [c IH].
    assert (D : prodl Q = nth i Q 0 * prodl (others i Q)) by (apply others_prod; lia).
    rewrite D, others_S. cbn [prodl].
    exists (a * prodl (others i Q) + q * c).
    replace (crt_num (combine y Q)) with (nth i y 0 * prodl (others i Q) + c * nth i Q 0) by lia. ring.
Qed.

Lemma recon_len rows Q inv : length (recon_y rows Q inv) = length rows.
Proof. unfold recon_y. rewrite map_length, seq_length. reflexivity. Qed.

(** the integer all outputs of a base conversion are residues of *)
Definition modup_int (Q rows : list Z) : Z :=
  let y := recon_y rows Q (qoverqiinvqi (basisextenderparameters Q nil)) in
  crt_num (combine y Q) - f_quot (combine y Q) * prodl Q.

Lemma inv_indep Q P P' : qoverqiinvqi (basisextenderparameters Q P) = qoverqiinvqi (basisextenderparameters Q P').
Proof. reflexivity. Qed.

Lemma recon_nth rows Q P i : okbase Q -> length rows = length Q -> Forall (fun x => 0 <= x < W) rows -> (i < length Q)%nat ->
  let yi := nth i (recon_y rows Q (qoverqiinvqi (basisextenderparameters Q P))) 0 in
  0 <= yi < nth i Q 0 /\ eqz (nth i Q 0) (yi * prodl (others i Q)) (nth i rows 0).
Proof.
  intros OKB L F H yi. unfold yi, recon_y.
  rewrite (nth_map' _ _ _ O) by (rewrite seq_length; lia). rewrite seq_nth by lia. cbn [plus].
  destruct (qoverqiinvqi_ok Q P i OKB H) as (I1 & c & I2 & I3).
  assert (K : okq (nth i Q 0)) by (apply (proj1 (Forall_forall _ _) (proj2 OKB)); apply nth_In; assumption).
  assert (RB : 0 <= nth i rows 0 < W) by (apply (proj1 (Forall_forall _ _) F); apply nth_In; lia).
  destruct (mred_mont (nth i rows 0) _ c (nth i Q 0) K RB I1 I2) as [M1 M2].
  split; [assumption|]. rewrite M2. transitivity (nth i rows 0 * (c * prodl (others i Q))); [apply eqz_eq; ring|].
  rewrite I3. apply eqz_eq. ring.
Qed.

Lemma recon_okyq rows Q P : okbase Q -> length rows = length Q -> Forall (fun x => 0 <= x < W) rows ->
  Forall okyq (combine (recon_y rows Q (qoverqiinvqi (basisextenderparameters Q P))) Q).
Proof.
  intros OKB L F. apply Forall_forall. intros [y q] HI. apply (In_nth _ _ (0, 0)) in HI.
  destruct HI as (i & Hi & E). rewrite combine_length, recon_len, L, Nat.min_id in Hi.
  rewrite combine_nth in E by (rewrite recon_len; assumption). injection E as E1 E2. subst y q.
  destruct (recon_nth rows Q P i OKB L F Hi) as [B _].
  assert (K : okq (nth i Q 0)) by (apply (proj1 (Forall_forall _ _) (proj2 OKB)); apply nth_In; assumption).
  split; cbn [fst snd]; [assumption|]. apply okq_lt in K. unfold W in K. lia.
Qed.

Theorem modup_int_ok Q rows : okbase Q -> (length Q <= 32)%nat -> length rows = length Q -> Forall (fun x => 0 <= x < W) rows ->
  (forall i, (i < length Q)%nat -> eqz (nth i Q 0) (modup_int Q rows) (nth i rows 0)) /\
  - prodl Q < 2 ^ 40 * modup_int Q rows < (2 ^ 40 + 1) * prodl Q.
Proof.
  intros OKB LQ L F. unfold modup_int. set (y := recon_y _ _ _).
  assert (Ly : length y = length Q) by (unfold y; rewrite recon_len; assumption).
  split.
  - intros i Hi. rewrite crt_num_mod by assumption.
    destruct (recon_nth rows Q nil i OKB L F Hi) as [_ E]. fold y in E. rewrite E.
    rewrite (others_prod i Q Hi). exists (- f_quot (combine y Q) * prodl (others i Q)). ring.
  - pose proof (f_quot_ok (combine y Q) (recon_okyq rows Q nil OKB L F)) as FQ. cbv zeta in FQ.
    rewrite combine_length, Ly, Nat.min_id, qprod_prodl in FQ by assumption. apply FQ. assumption.
Qed.

(** one output of a base conversion: in range, no table lookup out of bounds, and congruent to [modup_int] *)
Theorem multsum_modup Q P rows j : okbase Q -> Forall okq P -> (length Q <= 32)%nat -> length rows = length Q ->
  Forall (fun x => 0 <= x < W) rows -> (j < length P)%nat ->
  let params := basisextenderparameters Q P in
  let y := recon_y rows Q (qoverqiinvqi params) in let v := f_quot (combine y Q) in
  exists r, (vt <- idx (vtimesqmodp params) j ;; qo <- idx (qoverqimodp params) j ;; multSum y v (nth j P 0) vt qo) = Ok r /\
    0 <= r < 6 * nth j P 0 /\ eqz (nth j P 0) r (modup_int Q rows).
Proof.
  intros OKB FP LQ L F Hj params y v.
  assert (Ly : length y = length Q) by (unfold y; rewrite recon_len; assumption).
  assert (K : okq (nth j P 0)) by (apply (proj1 (Forall_forall _ _) FP); apply nth_In; assumption).
  rewrite (idx_nth _ _ nil) by (cbn [qoverqimodp vtimesqmodp basisextenderparameters params]; subst params; cbn [qoverqimodp vtimesqmodp basisextenderparameters]; rewrite map_length; assumption).
  rewrite (idx_nth _ _ nil) by (cbn [qoverqimodp vtimesqmodp basisextenderparameters params]; subst params; cbn [qoverqimodp vtimesqmodp basisextenderparameters]; rewrite map_length; assumption). cbn [rbind].
  pose proof (f_quot_ok (combine y Q) (recon_okyq rows Q P OKB L F)) as FQ. cbv zeta in FQ. fold y v in FQ.
  rewrite combine_length, Ly, Nat.min_id in FQ. destruct (FQ LQ) as [V _].
  assert (FO : Forall okq Q) by apply OKB.
  destruct (vtimesqmodp_ok Q P j (Z.to_nat v) FO FP Hj ltac:(lia)) as [T1 T2]. cbv zeta in T1, T2.
  fold params in T1, T2. set (vt := nth j (vtimesqmodp params) nil) in *. set (qo := nth j (qoverqimodp params) nil) in *.
  assert (Lqo : length qo = length Q) by (apply qo_len; assumption).
  assert (Lvt : length vt = S (length Q)) by (apply vt_len; assumption).
  set (p := nth j P 0) in *.
  destruct (multSum_ok y qo vt v p K) as (r & E & B & C); try lia; try assumption.
  { apply Forall_forall. intros [a b] HI. apply (In_nth _ _ (0, 0)) in HI. destruct HI as (i & Hi & E).
    rewrite combine_length, Ly, Lqo, Nat.min_id in Hi. rewrite combine_nth in E by lia. injection E as E1 E2. subst a b. cbn [fst snd].
    destruct (recon_nth rows Q P i OKB L F Hi) as [B1 _]. fold params in B1. fold y in B1.
    destruct (qoverqimodp_ok Q P i j FO FP Hi Hj) as [B2 _]. fold params in B2. fold qo in B2. fold p in B2.
    assert (Kq : okq (nth i Q 0)) by (apply (proj1 (Forall_forall _ _) FO); apply nth_In; assumption).
    destruct Kq. lia. }
  exists r. split; [assumption|]. split; [assumption|].
  apply (eqz_cancel p W); [apply okq_W; assumption|]. rewrite C, T2.
  rewrite (dot_crt p Q y qo W) by (try assumption; intros i Hi; apply (qoverqimodp_ok Q P i j FO FP Hi Hj)).
  unfold modup_int. change (recon_y rows Q (qoverqiinvqi (basisextenderparameters Q nil))) with y. fold v.
  rewrite Z2Nat.id by lia. apply eqz_eq. ring.
Qed.

(** ** rmapM *)
Lemma rmapM_ok {A B} (f : A -> res B) l (Pp : A -> B -> Prop) :
  (forall x, In x l -> exists y, f x = Ok y /\ Pp x y) -> exists ys, rmapM f l = Ok ys /\ Forall2 Pp l ys.
Proof.
  induction l as [|x l IH]; intros H.
  - exists nil. split; [reflexivity|constructor].
  - destruct (H x ltac:(left; reflexivity)) as (y & E & Py).
    destruct IH as (ys & E2 & P2); [intros; apply H; right; assumption|].
    exists (y :: ys). cbn [rmapM]. rewrite E. cbn [rbind]. rewrite E2. cbn [rbind]. split; [reflexivity|constructor; assumption].
Qed.
Lemma Forall2_nth {A B} (Pp : A -> B -> Prop) l l' i d d' : Forall2 Pp l l' -> (i < length l)%nat -> Pp (nth i l d) (nth i l' d').
Proof.
  intros F. revert i. induction F as [|x y l l' H F IH]; intros i Hi; cbn in *; [lia|]. destruct i; [assumption|apply IH; lia].
Qed.
Lemma Forall2_len {A B} (Pp : A -> B -> Prop) l l' : Forall2 Pp l l' -> length l = length l'.
Proof. induction 1; cbn; congruence. Qed.

Lemma firstn_length' {A} (l : list A) n : (n <= length l)%nat -> length (firstn n l) = n.
Proof. intros. rewrite firstn_length. lia. Qed.
Lemma firstn_incl {A} n (l : list A) x : In x (firstn n l) -> In x l.
Proof. intros H. rewrite <- (firstn_skipn n l). apply in_or_app. left. assumption. Qed.
Lemma skipn_incl {A} n (l : list A) x : In x (skipn n l) -> In x l.
Proof. intros H. rewrite <- (firstn_skipn n l). apply in_or_app. right. assumption. Qed.
Lemma NoDup_app_remove_l {A} (l l' : list A) : NoDup (l ++ l') -> NoDup l'.
Proof. induction l as [|x l IH]; cbn; intros H; [assumption|]. inversion H; auto. Qed.
Lemma NoDup_app_remove_r {A} (l l' : list A) : NoDup (l ++ l') -> NoDup l.
Proof.
  induction l as [|x l IH]; cbn; intros H; [constructor|]. inversion H; subst. constructor; [|auto].
  intros I. apply H2. apply in_or_app. left. assumption.
Qed.
Lemma NoDup_firstn {A} n (l : list A) : NoDup l -> NoDup (firstn n l).
Proof. intros H. rewrite <- (firstn_skipn n l) in H. apply NoDup_app_remove_r in H. assumption. Qed.
Lemma NoDup_skipn {A} n (l : list A) : NoDup l -> NoDup (skipn n l).
Proof. intros H. rewrite <- (firstn_skipn n l) in H. apply NoDup_app_remove_l in H. assumption. Qed.
Lemma okbase_firstn n Q : okbase Q -> okbase (firstn n Q).
Proof.
  intros [A B]. split; [apply NoDup_firstn; assumption|]. apply Forall_forall. intros x Hx. apply (proj1 (Forall_forall _ _) B). apply (firstn_incl n); assumption.
Qed.
Lemma okbase_skipn n Q : okbase Q -> okbase (skipn n Q).
Proof.
  intros [A B]. split; [apply NoDup_skipn; assumption|]. apply Forall_forall. intros x Hx. apply (proj1 (Forall_forall _ _) B). apply (skipn_incl n); assumption.
Qed.
Lemma nth_firstn {A} n (l : list A) i d : (i < n)%nat -> nth i (firstn n l) d = nth i l d.
Proof.
  revert l i. induction n as [|n IH]; intros l i H; [lia|]. destruct l as [|x l]; [destruct i; reflexivity|].
  destruct i; [reflexivity|]. cbn. apply IH. lia.
Qed.
Lemma nth_skipn {A} n (l : list A) i d : nth i (skipn n l) d = nth (n + i) l d.
Proof. revert l. induction n as [|n IH]; intros l; [reflexivity|]. destruct l as [|x l]; [destruct i; reflexivity|]. cbn. apply IH. Qed.

(** the reconstruction only looks at the first [length rows] moduli *)
Lemma recon_firstn rows Q inv n : length rows = n -> recon_y rows (firstn n Q) inv = recon_y rows Q inv.
Proof.
  intros L. unfold recon_y. apply map_ext_in. intros i Hi. apply in_seq in Hi. rewrite nth_firstn by lia. reflexivity.
Qed.
Lemma combine_firstn_r {A B} (y : list A) (Q : list B) n : length y = n -> combine y (firstn n Q) = combine y Q.
Proof.
  revert y Q. induction n as [|n IH]; intros [|a y] [|q Q] H; cbn in *; try lia; try reflexivity. f_equal. apply IH. lia.
Qed.

(** ** C08 *)
Theorem ModUp_ok Q P levelQ levelP rows :
  okbase Q -> Forall okq P -> (levelQ < length Q)%nat -> (levelP < length P)%nat -> (S levelQ <= 32)%nat ->
  (S levelQ <= length rows)%nat -> Forall (fun x => 0 <= x < W) rows ->
  exists out, ModUp Q P levelQ levelP rows = Ok out /\ length out = S levelP /\
    let X := modup_int (firstn (S levelQ) Q) (firstn (S levelQ) rows) in
    forall j, (j <= levelP)%nat -> 0 <= nth j out 0 < 6 * nth j P 0 /\ eqz (nth j P 0) (nth j out 0) X.
Proof.
  intros OKB FP HQ HP L32 LR F. unfold ModUp, params_table.
  rewrite (idx_nth _ _ (basisextenderparameters (firstn (S levelQ) Q) P)).
  2:{ rewrite map_length, seq_length. assumption. }
  rewrite (nth_map' _ _ _ O) by (rewrite seq_length; assumption). rewrite seq_nth by assumption. cbn [plus rbind].
  set (Q' := firstn (S levelQ) Q). set (rows' := firstn (S levelQ) rows).
  assert (LQ' : length Q' = S levelQ) by (apply firstn_length'; lia).
  assert (Lr' : length rows' = S levelQ) by (apply firstn_length'; lia).
  assert (F' : Forall (fun x => 0 <= x < W) rows').
  { apply Forall_forall. intros x Hx. apply (proj1 (Forall_forall _ _) F). apply (firstn_incl (S levelQ)); assumption. }
  unfold modUpExact, reconstructRNS. rewrite Lr'. destruct (Nat.ltb_spec 32 (S levelQ)); [lia|]. cbn [rbind].
  rewrite <- (recon_firstn rows' Q _ (S levelQ) Lr'). fold Q'.
  set (params := basisextenderparameters Q' P). set (y := recon_y rows' Q' (qoverqiinvqi params)).
  assert (Ly : length y = S levelQ) by (unfold y; rewrite recon_len; assumption).
  rewrite <- (combine_firstn_r y Q (S levelQ) Ly). fold Q'.
  set (v := f_quot (combine y Q')).
  set (P' := firstn (S levelP) P). assert (LP' : length P' = S levelP) by (apply firstn_length'; lia).
  destruct (rmapM_ok (fun jp : nat * Z => let '(j, pj) := jp in vt <- idx (vtimesqmodp params) j ;; qo <- idx (qoverqimodp params) j ;; multSum y v pj vt qo)
      (combine (seq 0 (length P')) P')
      (fun jp r => 0 <= r < 6 * snd jp /\ eqz (snd jp) r (modup_int Q' rows'))) as (out & E & FF).
  { intros [j p] HI. apply (In_nth _ _ (O, 0)) in HI. destruct HI as (k & Hk & E).
    rewrite combine_length, seq_length, Nat.min_id, LP' in Hk.
    rewrite nth_combine_seq in E by lia. cbn [plus] in E. injection E as E1 E2. subst j p.
    unfold P'. rewrite nth_firstn by lia. cbn [snd].
    apply (multsum_modup Q' P rows' k (okbase_firstn _ _ OKB) FP); try lia; assumption. }
  exists out. split; [exact E|].
  pose proof (Forall2_len _ _ _ FF) as LO. rewrite combine_length, seq_length, Nat.min_id, LP' in LO.
  split; [lia|]. cbv zeta. intros j Hj.
  pose proof (Forall2_nth _ _ _ j (O, 0) 0 FF) as FN.
  rewrite nth_combine_seq in FN by lia. rewrite combine_length, seq_length, Nat.min_id, LP' in FN. cbn [plus snd] in FN.
  unfold P' in FN. rewrite nth_firstn in FN by lia. apply FN. lia.
Qed.

(** ** mod-down constants *)
Lemma gen_mod_down_ok Q : Forall okq Q -> forall P done prev, Forall okq P ->
  (forall i p, (i < length Q)%nat -> In p P -> ~ (nth i Q 0 | p)) ->
  (match prev with None => done = 1 | Some r => forall i, (i < length Q)%nat -> 0 <= nth i r 0 < nth i Q 0 /\
      exists c, eqz (nth i Q 0) (nth i r 0) (c * W) /\ eqz (nth i Q 0) (c * done) 1 end) ->
  forall j, (j < length P)%nat -> forall i, (i < length Q)%nat ->
    let q := nth i Q 0 in let t := nth i (nth j (gen_mod_down Q P prev) nil) 0 in
    0 <= t < q /\ exists c, eqz q t (c * W) /\ eqz q (c * (done * prodl (firstn (S j) P))) 1.
Proof.
  intros FQ. induction P as [|p P IH]; intros done prev FP ND HP j Hj i Hi q t; cbn in Hj; [lia|].
  apply Forall_cons_iff in FP. destruct FP as [Kp FP].
  set (row := map (fun iq : nat * Z => let '(i, qi) := iq in
                      let x := mform (mod_exp p (qi - 2) qi) qi (bred_params qi) in
                      match prev with
                      | None => x
                      | Some r => mred x (nth i r 0) qi (mred_params qi)
                      end) (combine (seq 0 (length Q)) Q)).
  assert (ROW : forall i, (i < length Q)%nat -> 0 <= nth i row 0 < nth i Q 0 /\
      exists c, eqz (nth i Q 0) (nth i row 0) (c * W) /\ eqz (nth i Q 0) (c * (done * p)) 1).
  { clear i Hi q t. intros i Hi. unfold row.
    rewrite (nth_map' _ _ _ (O, 0)) by (rewrite combine_length, seq_length, Nat.min_id; assumption).
    rewrite nth_combine_seq by assumption. cbn [plus]. set (q := nth i Q 0).
    assert (K : okq q) by (apply (proj1 (Forall_forall _ _) FQ); apply nth_In; assumption).
    pose proof (okq_lt q K) as QL. pose proof (okq_lt p Kp) as PL. pose proof K as [Pq Bq].
    rewrite mod_exp_ok by lia.
    pose proof (Z.mod_pos_bound (p ^ (q - 2)) q ltac:(lia)) as MB.
    destruct (mform_mont (p ^ (q - 2) mod q) q K ltac:(lia)) as [M1 M2].
    assert (PI : eqz q (p * (p ^ (q - 2) mod q)) 1).
    { pose proof (invm_eqz q p Pq (ND i p Hi ltac:(left; reflexivity))) as I. unfold invm in I. rewrite powm_ok in I by lia. exact I. }
    destruct prev as [r|].
    - destruct (HP i Hi) as (R1 & c & R2 & R3). fold q in R1, R2, R3.
      destruct (mred_mont (mform (p ^ (q - 2) mod q) q (bred_params q)) (nth i r 0) c q K ltac:(lia) R1 R2) as [N1 N2].
      split; [assumption|]. exists ((p ^ (q - 2) mod q) * c). split.
      + rewrite N2, M2. apply eqz_eq. ring.
      + transitivity ((p * (p ^ (q - 2) mod q)) * (c * done)); [apply eqz_eq; ring|]. rewrite PI, R3. reflexivity.
    - subst done. split; [assumption|]. exists (p ^ (q - 2) mod q). split; [assumption|].
      rewrite Z.mul_1_l, Z.mul_comm. assumption. }
  unfold t. cbn [gen_mod_down]. fold row. destruct j as [|j].
  - cbn [nth firstn prodl]. destruct (ROW i Hi) as (A & c & B & C). split; [assumption|]. exists c. split; [assumption|].
    rewrite Z.mul_1_r. exact C.
  - change (firstn (S (S j)) (p :: P)) with (p :: firstn (S j) P). cbn [nth prodl]. destruct (IH (done * p) (Some row) FP) with (j := j) (i := i) as (A & c & B & C); try assumption; try lia.
    { intros; apply ND; [assumption|right; assumption]. }
    split; [assumption|]. exists c. split; [assumption|].
    replace (done * (p * prodl (firstn (S j) P))) with (done * p * prodl (firstn (S j) P)) by ring. exact C.
Qed.

Theorem genModDownParams_ok Q P j i : okbase (Q ++ P) -> (j < length P)%nat -> (i < length Q)%nat ->
  let q := nth i Q 0 in let t := nth i (nth j (genModDownParams Q P) nil) 0 in
  0 <= t < q /\ exists c, eqz q t (c * W) /\ eqz q (c * prodl (firstn (S j) P)) 1.
Proof.
  intros [ND F] Hj Hi q t. apply Forall_app in F. destruct F as [FQ FP].
  destruct (gen_mod_down_ok Q FQ P 1 None FP) with (j := j) (i := i) as (A & c & B & C); try assumption; try reflexivity.
  - intros k p Hk Hp D. apply prime_div_prime in D.
    + subst p. apply (NoDup_app_remove_l) in ND as ND2. clear -ND Hk Hp.
      apply nth_In with (d := 0) in Hk. induction Q as [|q Q IH]; [destruct Hk|]. cbn in ND. inversion ND; subst.
      destruct Hk as [E|Hk].
      * apply H1. rewrite E. apply in_or_app. right. destruct k; assumption.
      * revert Hk Hp. generalize (nth k (q :: Q) 0). intros x Hk Hp.
        clear IH. assert (NQ : NoDup (Q ++ P)) by assumption.
        revert Hk Hp NQ. clear. induction Q as [|a Q IH]; intros Hk Hp NQ; [destruct Hk|]. cbn in NQ. inversion NQ; subst.
        destruct Hk as [->|Hk]; [apply H1; apply in_or_app; right; assumption|]. apply IH; assumption.
    + apply (proj1 (Forall_forall _ _) FQ). apply nth_In. assumption.
    + apply (proj1 (Forall_forall _ _) FP). assumption.
  - split; [assumption|]. exists c. split; [assumption|]. rewrite Z.mul_1_l in C. exact C.
Qed.
Lemma gen_mod_down_len Q P prev : length (gen_mod_down Q P prev) = length P.
Proof. revert prev. induction P as [|p P IH]; intros prev; cbn; [reflexivity|]. rewrite IH. reflexivity. Qed.

(** one division step *)
Lemma md_out_ok q x y md c D : okq q -> 0 <= x < 2 * q -> 0 <= y < 6 * q -> 0 <= md < q -> eqz q md (c * W) -> eqz q (c * D) 1 ->
  0 <= md_out q x y md < q /\ eqz q (D * md_out q x y md) (x - y).
Proof.
  intros K Hx Hy Hm E1 E2. unfold md_out. pose proof (okq_lt q K) as QL. pose proof K as [Pq Bq].
  assert (A1 : w64 (q * 2) = q * 2) by (apply Z.mod_small; unfold W; lia). rewrite A1.
  assert (A2 : w64 (y + q * 2) = y + q * 2) by (apply Z.mod_small; unfold W; lia). rewrite A2.
  assert (A3 : w64 (y + q * 2 - x) = y + q * 2 - x) by (apply Z.mod_small; unfold W; lia). rewrite A3.
  assert (A4 : w64 (q - md) = q - md) by (apply Z.mod_small; unfold W; lia). rewrite A4.
  destruct (mred_ok (y + q * 2 - x) (q - md) q) as [B C]; try lia.
  - apply okq_odd; assumption.
  - unfold W. nia.
  - split; [assumption|]. apply (eqz_cancel q W); [apply okq_W; assumption|].
    transitivity (D * (W * mred (y + q * 2 - x) (q - md) q (mred_params q))); [apply eqz_eq; ring|]. rewrite C.
    transitivity (D * ((x - y) * md)); [exists (D * (y + q * 2 - x - 2 * md)); ring|]. rewrite E1.
    transitivity ((c * D) * (W * (x - y))); [apply eqz_eq; ring|]. rewrite E2. apply eqz_eq. ring.
Qed.

(** ** C09 *)
Theorem ModDownQPtoQ_ok Q P levelQ levelP rowsQ rowsP :
  okbase (Q ++ P) -> (levelQ < length Q)%nat -> (levelP < length P)%nat -> (S levelP <= 32)%nat ->
  (S levelP <= length rowsP)%nat -> Forall (fun x => 0 <= x < W) rowsP ->
  (forall i, (i <= levelQ)%nat -> 0 <= nth i rowsQ 0 < 2 * nth i Q 0) ->
  exists out, ModDownQPtoQ Q P levelQ levelP rowsQ rowsP = Ok out /\ length out = S levelQ /\
    let Rm := modup_int (firstn (S levelP) P) (firstn (S levelP) rowsP) in
    forall i, (i <= levelQ)%nat -> 0 <= nth i out 0 < nth i Q 0 /\
      eqz (nth i Q 0) (prodl (firstn (S levelP) P) * nth i out 0) (nth i rowsQ 0 - Rm).
Proof.
  intros OKB HQ HP L32 LR F FQr. pose proof OKB as [ND FO]. apply Forall_app in FO. destruct FO as [FQ FP].
  unfold ModDownQPtoQ.
  assert (OKP : okbase P) by (split; [apply NoDup_app_remove_l in ND; assumption|assumption]).
  destruct (ModUp_ok P Q levelP levelQ rowsP OKP FQ HP HQ L32 LR F) as (pool & E & LP & HPo). rewrite E. cbn [rbind].
  rewrite (idx_nth _ _ nil) by (unfold genModDownParams; rewrite gen_mod_down_len; assumption). cbn [rbind].
  eexists. split; [reflexivity|]. split; [rewrite map_length, seq_length; reflexivity|]. cbv zeta. intros i Hi.
  rewrite (nth_map' _ _ _ O) by (rewrite seq_length; lia). rewrite seq_nth by lia. cbn [plus].
  destruct (HPo i Hi) as [B C].
  destruct (genModDownParams_ok Q P levelP i OKB HP ltac:(lia)) as (M1 & c & M2 & M3).
  assert (K : okq (nth i Q 0)) by (apply (proj1 (Forall_forall _ _) FQ); apply nth_In; lia).
  destruct (md_out_ok (nth i Q 0) (nth i rowsQ 0) (nth i pool 0) _ c (prodl (firstn (S levelP) P)) K (FQr i Hi) B M1 M2 M3) as [O1 O2].
  split; [assumption|]. rewrite O2, C. reflexivity.
Qed.

(** ** C10: correct when the two levels coincide *)
Lemma nodup_swap {A} (l1 l2 : list A) : NoDup (l1 ++ l2) -> NoDup (l2 ++ l1).
Proof. apply Permutation_NoDup. apply Permutation_app_comm. Qed.
Lemma okbase_swap Q P : okbase (Q ++ P) -> okbase (P ++ Q).
Proof.
  intros [A B]. split; [apply nodup_swap; assumption|]. apply Forall_app in B. apply Forall_app. tauto.
Qed.

(** what ModDownQPtoP really divides by: the product of the first levelP+1 moduli of Q *)
Theorem ModDownQPtoP_ok Q P levelQ levelP rowsQ rowsP :
  okbase (Q ++ P) -> (levelQ < length Q)%nat -> (levelP < length P)%nat -> (levelP < length Q)%nat -> (S levelQ <= 32)%nat ->
  (S levelQ <= length rowsQ)%nat -> Forall (fun x => 0 <= x < W) rowsQ ->
  (forall i, (i <= levelP)%nat -> 0 <= nth i rowsP 0 < 2 * nth i P 0) ->
  exists out, ModDownQPtoP Q P levelQ levelP rowsQ rowsP = Ok out /\ length out = S levelP /\
    let Rm := modup_int (firstn (S levelQ) Q) (firstn (S levelQ) rowsQ) in
    forall i, (i <= levelP)%nat -> 0 <= nth i out 0 < nth i P 0 /\
      eqz (nth i P 0) (prodl (firstn (S levelP) Q) * nth i out 0) (nth i rowsP 0 - Rm).
Proof.
  intros OKB HQ HP HX L32 LR F FQr. pose proof OKB as [ND FO]. apply Forall_app in FO. destruct FO as [FQ FP].
  unfold ModDownQPtoP.
  assert (OKQ : okbase Q) by (split; [apply NoDup_app_remove_r in ND; assumption|assumption]).
  destruct (ModUp_ok Q P levelQ levelP rowsQ OKQ FP HQ HP L32 LR F) as (pool & E & LP & HPo). rewrite E. cbn [rbind].
  rewrite (idx_nth _ _ nil) by (unfold genModDownParams; rewrite gen_mod_down_len; assumption). cbn [rbind].
  eexists. split; [reflexivity|]. split; [rewrite map_length, seq_length; reflexivity|]. cbv zeta. intros i Hi.
  rewrite (nth_map' _ _ _ O) by (rewrite seq_length; lia). rewrite seq_nth by lia. cbn [plus].
  destruct (HPo i Hi) as [B C].
  destruct (genModDownParams_ok P Q levelP i (okbase_swap _ _ OKB) HX ltac:(lia)) as (M1 & c & M2 & M3).
  assert (K : okq (nth i P 0)) by (apply (proj1 (Forall_forall _ _) FP); apply nth_In; lia).
  destruct (md_out_ok (nth i P 0) (nth i rowsP 0) (nth i pool 0) _ c (prodl (firstn (S levelP) Q)) K (FQr i Hi) B M1 M2 M3) as [O1 O2].
  split; [assumption|]. rewrite O2, C. reflexivity.
Qed.
