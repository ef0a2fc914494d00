(** The slots of a polynomial modulo t, and the encoder of BfvMsg.v. *)
From Verif Require Import Base IdSetModel KeySetModel NumTheory Negacyclic Ntt Word BasisExt BasisExtProofs Rows RlweModel SchemeSpec KeyGenModel Galois CtModel KeySwitchModel BfvModel BfvMulModel BfvConv PropsBfvConv Instance LeakSpec PropsLeak Slots PropsSlots SlotEncode HeapModel HeapProofs BfvCircuit BfvMsg.
From Coq Require Import Znumtheory Setoid Morphisms.
Open Scope Z_scope.

Section Pos.
  Context (N k : nat) (HN : N = (2 ^ (k + 1))%nat).
  Notation h := (N / 2)%nat.
  Lemma half_eq : h = (2 ^ k)%nat.
  Proof using HN. rewrite HN, Nat.pow_add_r. change (2 ^ 1)%nat with 2%nat. apply Nat.div_mul. lia. Qed.
  Lemma N_half : N = (h + h)%nat.
  Proof using HN. rewrite half_eq, HN, Nat.pow_add_r. change (2 ^ 1)%nat with 2%nat. lia. Qed.
  Lemma twoN : 2 * Z.of_nat N = 2 ^ Z.of_nat (k + 2).
  Proof using HN. rewrite HN, Nat2Z.inj_pow. replace (Z.of_nat (k + 2)) with (Z.of_nat (k + 1) + 1) by lia. rewrite Z.pow_add_r by lia. change (Z.of_nat 2) with 2. lia. Qed.
  Lemma half_pos : (0 < h)%nat. Proof using HN. rewrite half_eq. pose proof (Nat.pow_nonzero 2 k). lia. Qed.
  Lemma five_res d : exists p, 5 ^ Z.of_nat d mod (2 * Z.of_nat N) = 2 * Z.of_nat p + 1 /\ (p < N)%nat.
  Proof using HN.
    pose proof half_pos as HP. pose proof N_half as NH. pose proof (Z.mod_pos_bound (5 ^ Z.of_nat d) (2 * Z.of_nat N) ltac:(lia)) as MB. pose proof (Z.div_mod (5 ^ Z.of_nat d) (2 * Z.of_nat N) ltac:(lia)) as DM.
    destruct (five_mod8 d) as [v V]. set (r := 5 ^ Z.of_nat d mod (2 * Z.of_nat N)) in *. set (q := 5 ^ Z.of_nat d / (2 * Z.of_nat N)) in *. rewrite V in DM.
    assert (E : r = 2 * (2 * v - Z.of_nat N * q) + 1) by lia. exists (Z.to_nat (2 * v - Z.of_nat N * q)). lia.
  Qed.
  Lemma slot_pos_ok i : (i < N)%nat -> (slot_pos N i < N)%nat /\
    ((i < h)%nat -> 2 * Z.of_nat (slot_pos N i) + 1 = 5 ^ Z.of_nat i mod (2 * Z.of_nat N)) /\
    ((h <= i)%nat -> 2 * Z.of_nat (slot_pos N i) + 1 = 2 * Z.of_nat N - 5 ^ Z.of_nat (i - h) mod (2 * Z.of_nat N)).
  Proof using HN.
    intros Hi. unfold slot_pos. destruct (Nat.ltb_spec i h) as [L|L].
    - destruct (five_res i) as (p & E & HP). rewrite E. replace (2 * Z.of_nat p + 1 - 1) with (Z.of_nat p * 2) by ring. rewrite Z.div_mul, Nat2Z.id by lia. split; [exact HP|]. split; [intros; lia|intros; lia].
    - destruct (five_res (i - h)) as (p & E & HP). rewrite E. replace (2 * Z.of_nat N - (2 * Z.of_nat p + 1) - 1) with (Z.of_nat (N - 1 - p) * 2) by lia. rewrite Z.div_mul, Nat2Z.id by lia. split; [lia|]. split; [intros; lia|intros; lia].
  Qed.
  Lemma slot_pos_inj i j : (i < N)%nat -> (j < N)%nat -> slot_pos N i = slot_pos N j -> i = j.
  Proof using HN.
    intros Hi Hj E. pose proof N_half as NH. pose proof half_eq as HE. pose proof twoN as TN.
    destruct (slot_pos_ok i Hi) as (_ & Ai & Bi). destruct (slot_pos_ok j Hj) as (_ & Aj & Bj). rewrite E in Ai, Bi. clear E.
    assert (M : forall d, exists c, 5 ^ Z.of_nat d = 2 ^ Z.of_nat (k + 2) * c + 5 ^ Z.of_nat d mod (2 * Z.of_nat N)) by (intros d; exists (5 ^ Z.of_nat d / (2 * Z.of_nat N)); rewrite <- TN; apply Z.div_mod; lia).
    destruct (Nat.eq_dec i j) as [|NE]; [assumption|exfalso].
    destruct (Nat.lt_ge_cases i h) as [Li|Li], (Nat.lt_ge_cases j h) as [Lj|Lj].
    - apply (five_distinct k i j); try lia. destruct (M i) as [ci Ei], (M j) as [cj Ej]. exists (ci - cj). specialize (Ai Li). specialize (Aj Lj). lia.
    - apply (five_sum k i (j - h)). destruct (M i) as [ci Ei], (M (j - h)%nat) as [cj Ej]. exists (ci + cj + 1). specialize (Ai Li). specialize (Bj Lj). lia.
    - apply (five_sum k (i - h) j). destruct (M (i - h)%nat) as [ci Ei], (M j) as [cj Ej]. exists (ci + cj + 1). specialize (Bi Li). specialize (Aj Lj). lia.
    - apply (five_distinct k (i - h) (j - h)); try lia. destruct (M (i - h)%nat) as [ci Ei], (M (j - h)%nat) as [cj Ej]. exists (ci - cj). specialize (Bi Li). specialize (Bj Lj). lia.
  Qed.
  Lemma fill_ok b vals : length (fill_slots (N := N) b vals) = N /\ forall i, (i < N)%nat -> nth (slot_pos N i) (fill_slots (N := N) b vals) 0 = enc_word (bT b) (nth i vals 0).
  Proof using HN.
    assert (G : forall n, (n <= N)%nat -> let a := fold_left (fun a i => upd a (slot_pos N i) (enc_word (bT b) (nth i vals 0))) (seq 0 n) (repeat 0 N) in
      length a = N /\ forall i, (i < n)%nat -> nth (slot_pos N i) a 0 = enc_word (bT b) (nth i vals 0)).
    { induction n as [|n IH]; intros Hn; [split; [apply repeat_length|lia]|]. cbv zeta. rewrite seq_S, fold_left_app. cbn [fold_left Nat.add]. destruct IH as [L IH]; [lia|]. destruct (slot_pos_ok n ltac:(lia)) as [PL _].
      split; [rewrite upd_len; exact L|]. intros i Hi. destruct (Nat.eq_dec i n) as [->|NE]; [apply upd_nth_eq; rewrite L; exact PL|].
      rewrite upd_nth_neq; [apply IH; lia|]. intros E. apply NE. apply slot_pos_inj; [lia|lia|congruence]. }
    apply (G N). lia.
  Qed.
End Pos.

Lemma eqm_eqz {N} q (a b : R N) i : eqm q a b -> (i < N)%nat -> eqz q (co a i) (co b i).
Proof. intros H Hi. apply (proj1 (eqm_co _ _ _) H i Hi). Qed.
Section Slots.
  Context {N : nat} (t root : Z) (OKT : okm (N := N) (Mod t root)) (k : nat) (HN : N = (2 ^ (k + 1))%nat).
  Notation R := (R N). Notation mt := (Mod t root). Notation h := (N / 2)%nat. Notation rinv := (invm t root).
  (** polynomial m has the vector v in its slots *)
  Definition carries (m : R) (v : vec) : Prop := forall i, (i < N)%nat -> eqz t (co (ntt mt m) (slot_pos N i)) (v i).

  Lemma t2 : 2 < t. Proof using OKT. clear k HN. apply OKT. Qed.
  Lemma rootN : (t | root ^ Z.of_nat N + 1).
  Proof using OKT. clear k HN. destruct OKT as (_ & _ & _ & E). cbn [mq mpsi] in E. destruct E as [c E]. exists c. lia. Qed.
  Lemma rinv_ok : eqz t (root * rinv) 1.
  Proof using OKT. clear k HN. apply (psi_inv mt OKT). Qed.
  Lemma rinvN : (t | rinv ^ Z.of_nat N + 1).
  Proof using OKT.
    clear k HN.
    assert (E : eqz t ((root * rinv) ^ Z.of_nat N) 1) by (rewrite <- (Z.pow_1_l (Z.of_nat N)) by lia; apply eqz_pow; [lia|apply rinv_ok]).
    rewrite Z.pow_mul_l in E. destruct rootN as [c C]. destruct E as [d D]. exists (c * rinv ^ Z.of_nat N - d). rewrite Z.mul_sub_distr_r, <- D. replace (c * rinv ^ Z.of_nat N * t) with (c * t * rinv ^ Z.of_nat N) by ring. rewrite <- C. ring.
  Qed.
  Lemma zsum_sum n f : zsum n f = sum n f.
  Proof using. clear. induction n as [|n IH]; cbn [zsum sum]; [reflexivity|]. rewrite IH. reflexivity. Qed.
  Lemma bfv_slot_ev r (m : R) j : eqz t (bfv_slot t r m j) (ev m (r ^ (5 ^ Z.of_nat j))).
  Proof using. clear. unfold bfv_slot. rewrite eqz_mod. apply eqz_eq. rewrite zsum_sum. reflexivity. Qed.
  Lemma pow_2N a c : 0 <= a -> 0 <= c -> eqz t (root ^ (a + 2 * Z.of_nat N * c)) (root ^ a).
  Proof using OKT.
    clear k HN.
    intros A C. rewrite Z.pow_add_r, Z.pow_mul_r by lia.
    assert (E : eqz t (root ^ (2 * Z.of_nat N)) 1).
    { replace (2 * Z.of_nat N) with (Z.of_nat N + Z.of_nat N) by lia. rewrite Z.pow_add_r by lia. destruct OKT as (_ & _ & _ & EN). cbn [mq mpsi] in EN. rewrite EN. reflexivity. }
    assert (E2 : eqz t ((root ^ (2 * Z.of_nat N)) ^ c) (1 ^ c)) by (apply eqz_pow; [lia|exact E]). rewrite Z.pow_1_l in E2 by lia. rewrite E2. apply eqz_eq. ring.
  Qed.
  Lemma slot_first (m : R) i : (i < h)%nat -> eqz t (co (ntt mt m) (slot_pos N i)) (bfv_slot t root m i).
  Proof using OKT HN.
    intros Hi. pose proof (N_half N k HN) as NH. destruct (slot_pos_ok N k HN i ltac:(lia)) as (P1 & P2 & _). specialize (P2 Hi). etransitivity; [apply (ntt_co mt OKT m _ P1)|]. cbn [mq mpsi]. rewrite P2.
    symmetry. etransitivity; [apply bfv_slot_ev|]. apply (ev_eqz mt). cbn [mq].
    pose proof (Z.mod_pos_bound (5 ^ Z.of_nat i) (2 * Z.of_nat N) ltac:(lia)) as MB. rewrite (Z.div_mod (5 ^ Z.of_nat i) (2 * Z.of_nat N)) at 1 by lia. rewrite Z.add_comm. apply pow_2N; [lia|]. apply Z.div_pos; [apply Z.pow_nonneg; lia|lia].
  Qed.
  Lemma slot_second (m : R) i : (h <= i < N)%nat -> eqz t (co (ntt mt m) (slot_pos N i)) (bfv_slot t rinv m (i - h)).
  Proof using OKT HN.
    intros Hi. pose proof (N_half N k HN) as NH. destruct (slot_pos_ok N k HN i ltac:(lia)) as (P1 & _ & P2). specialize (P2 ltac:(lia)). etransitivity; [apply (ntt_co mt OKT m _ P1)|]. cbn [mq mpsi]. rewrite P2.
    symmetry. etransitivity; [apply bfv_slot_ev|]. apply (ev_eqz mt). cbn [mq]. set (d := (i - h)%nat).
    pose proof (Z.mod_pos_bound (5 ^ Z.of_nat d) (2 * Z.of_nat N) ltac:(lia)) as MB. pose proof (Z.div_mod (5 ^ Z.of_nat d) (2 * Z.of_nat N) ltac:(lia)) as DM.
    assert (DP : 0 <= 5 ^ Z.of_nat d / (2 * Z.of_nat N)) by (apply Z.div_pos; [apply Z.pow_nonneg; lia|lia]).
    set (r := 5 ^ Z.of_nat d mod (2 * Z.of_nat N)) in *. set (q := 5 ^ Z.of_nat d / (2 * Z.of_nat N)) in *. set (e := 5 ^ Z.of_nat d) in *. clearbody r q e d.
    (* root^(2N - r) = root^(2N - r) (root rinv)^e = rinv^e root^(2N(q+1)) *)
    assert (E1 : eqz t ((root * rinv) ^ e) 1) by (rewrite <- (Z.pow_1_l e) by nia; apply eqz_pow; [nia|apply rinv_ok]).
    transitivity (root ^ (2 * Z.of_nat N - r) * (root * rinv) ^ e); [|rewrite E1; apply eqz_eq; ring]. rewrite Z.pow_mul_l, Z.mul_assoc, <- Z.pow_add_r by nia.
    replace (2 * Z.of_nat N - r + e) with (0 + 2 * Z.of_nat N * (q + 1)) by nia. rewrite (pow_2N 0 (q + 1)) by lia. apply eqz_eq. change (root ^ 0) with 1. ring.
  Qed.

  Lemma carries_eqm m m' v : eqm t m m' -> carries m v -> carries m' v.
  Proof using OKT. clear k HN. intros E H i Hi. rewrite <- (ntt_eqm mt OKT m m' E). apply H. exact Hi. Qed.
  Lemma carries_ext m v v' : (forall i, (i < N)%nat -> eqz t (v i) (v' i)) -> carries m v -> carries m v'.
  Proof using. clear. intros E H i Hi. rewrite (H i Hi). apply E. exact Hi. Qed.
  Lemma pos_lt i : (i < N)%nat -> (slot_pos N i < N)%nat. Proof using HN. intros Hi. apply (slot_pos_ok N k HN i Hi). Qed.
  Lemma carries_add m m' v v' : carries m v -> carries m' v' -> carries (add m m') (fun j => v j + v' j).
  Proof using OKT HN.
    intros H H' i Hi. pose proof (ntt_add mt OKT m m') as E. pose proof (eqm_eqz _ _ _ _ E (pos_lt i Hi)) as E'. cbn [mq] in E'.
    rewrite E', co_add, (H i Hi), (H' i Hi). reflexivity.
  Qed.
  Lemma carries_mul m m' v v' : carries m v -> carries m' v' -> carries (mul m m') (fun j => v j * v' j).
  Proof using OKT HN.
    intros H H' i Hi. pose proof (ntt_mul mt OKT m m') as E. pose proof (eqm_eqz _ _ _ _ E (pos_lt i Hi)) as E'. cbn [mq] in E'.  
    rewrite E'. unfold had. rewrite co_mkR by (apply pos_lt; exact Hi). rewrite (H i Hi), (H' i Hi). reflexivity.
  Qed.
  Lemma carries_sub m m' v v' : carries m v -> carries m' v' -> carries (sub m m') (fun j => v j - v' j).
  Proof using OKT HN.
    intros H H' i Hi. pose proof (ntt_add mt OKT (sub m m') m') as E. replace (add (sub m m') m') with m in E by (apply R_ext; intros x Hx; rewrite co_add, co_sub; ring).
    pose proof (eqm_eqz _ _ _ _ E (pos_lt i Hi)) as E'. cbn [mq] in E'.   rewrite co_add, (H i Hi), (H' i Hi) in E'. rewrite E'. apply eqz_eq. ring.
  Qed.
  Lemma pow2_N : pow2 N. Proof using HN. exists (k + 1)%nat. exact HN. Qed.
  Lemma carries_rot m v kk : carries m v -> carries (galois (5 ^ (kk mod Z.of_nat h)) m)
    (fun j => let q := Z.to_nat (kk mod Z.of_nat h) in if (j <? h)%nat then v ((j + q) mod h)%nat else v (h + (j - h + q) mod h)%nat).
  Proof using OKT HN.
    intros H i Hi. pose proof (N_half N k HN) as NH. pose proof (half_pos N k HN) as HP. cbv zeta. pose proof (Z.mod_pos_bound kk (Z.of_nat h) ltac:(lia)) as MB. pose proof t2 as T2.
    rewrite <- (Z2Nat.id (kk mod Z.of_nat h)) at 1 by lia. set (q := Z.to_nat (kk mod Z.of_nat h)). clearbody q.
    destruct (Nat.ltb_spec i h) as [L|L].
    - rewrite (slot_first _ i L), (C25_bfv_rotate N t root m i q pow2_N ltac:(lia) ltac:(lia) rootN). pose proof (Nat.mod_upper_bound (i + q) h ltac:(lia)) as ML. rewrite <- (slot_first m _ ML). apply H. lia.
    - rewrite (slot_second _ i) by lia. rewrite (C25_bfv_rotate N t rinv m (i - h) q pow2_N ltac:(lia) ltac:(lia) rinvN). pose proof (Nat.mod_upper_bound (i - h + q) h ltac:(lia)) as ML.
      replace ((i - h + q) mod h)%nat with (h + (i - h + q) mod h - h)%nat at 1 by lia. rewrite <- (slot_second m) by lia. apply H. lia.
  Qed.
  Lemma carries_conj m v : carries m v -> carries (galois (-1) m) (fun j => if (j <? h)%nat then v (j + h)%nat else v (j - h)%nat).
  Proof using OKT HN.
    intros H i Hi. pose proof (N_half N k HN) as NH. pose proof (half_pos N k HN) as HP. pose proof t2 as T2. pose proof rinv_ok as RI.
    destruct (Nat.ltb_spec i h) as [L|L].
    - rewrite (slot_first _ i L), (C25_bfv_conjugate N t root rinv m i ltac:(lia) ltac:(lia) rootN RI). replace i with (i + h - h)%nat at 1 by lia. rewrite <- (slot_second m (i + h)) by lia. apply H. lia.
    - rewrite (slot_second _ i) by lia. rewrite (C25_bfv_conjugate N t rinv root m (i - h) ltac:(lia) ltac:(lia) rinvN); [|rewrite Z.mul_comm; exact RI]. rewrite <- (slot_first m (i - h)) by lia. apply H. lia.
  Qed.
  (** a polynomial carries one vector only, modulo t *)
  Lemma carries_fun m v v' i : carries m v -> carries m v' -> (i < N)%nat -> eqz t (v i) (v' i).
  Proof using. clear. intros H H' Hi. rewrite <- (H i Hi). apply H'. exact Hi. Qed.
End Slots.

Section Codec.
  Context {N : nat} (b : bparams) (WB : wfb N b) (root : Z) (OKT : okm (N := N) (Mod (bT b) root)) (k : nat) (HN : N = (2 ^ (k + 1))%nat).
  Notation R := (R N). Notation t := (bT b).
  (** the values EncodeInt accepts *)
  Definition enc_ok (vals : list Z) : Prop := (length vals <= N)%nat /\ Forall (fun v => - bT b <= v < 2 ^ 63) vals.
  Lemma enc_word_ok v : - t <= v < 2 ^ 63 -> eqz t (enc_word t v) v.
  Proof using WB. clear k HN. pose proof (wb_t _ _ WB) as TP. clear - TP. intros H. unfold enc_word. destruct (Z.ltb_spec v 0) as [L|L]; rewrite Z.mod_small by lia; [exists 1; ring|reflexivity]. Qed.
  Lemma encode_ok vals : enc_ok vals -> exists m : R, EncodeRingT b root vals = Ok m /\ carries t root m (fun j => nth j vals 0).
  Proof using WB OKT HN.
    intros [L F]. unfold EncodeRingT. destruct (Nat.ltb_spec N (length vals)); [lia|]. eexists. split; [reflexivity|]. intros i Hi.
    pose proof (ntt_intt (Mod t root) OKT (mkR (fun j => nth j (fill_slots (N := N) b vals) 0))) as E. pose proof (eqm_eqz _ _ _ _ E (pos_lt k HN i Hi)) as E'. cbn [mq] in E'. 
    
    rewrite E', co_mkR by (apply (pos_lt k HN); exact Hi). rewrite (proj2 (fill_ok N k HN b vals) i Hi). apply enc_word_ok.
    destruct (Nat.lt_ge_cases i (length vals)) as [Li|Li]; [rewrite Forall_forall in F; apply F; apply nth_In; exact Li|]. rewrite nth_overflow by exact Li. pose proof (wb_t _ _ WB). lia.
  Qed.
  Lemma encode_panic vals : (N < length vals)%nat -> EncodeInt (N := N) b root vals = Panic.
  Proof using. clear. intros H. unfold EncodeInt, EncodeRingT. destruct (Nat.ltb_spec N (length vals)); [reflexivity|lia]. Qed.

  (** rows with the residues of X: ScaleDown gives round(t X / Q) modulo t *)
  Lemma scaledown_ok (p : poly N) X : residues (Qs (ppQ b)) (prows p) X -> eqm t (ScaleDown b p) (mkR (fun i => (2 * (t * co X i) + qprod b) / (2 * qprod b))).
  Proof using WB.
    clear k HN OKT. intros [LR HR]. pose proof (qprod_pos b WB) as QP. pose proof (wb_t _ _ WB) as TP. apply eqm_co. intros i Hi. unfold ScaleDown. rewrite !co_mkR by exact Hi.
    set (l := combine (Qs (ppQ b)) (map (fun r => co r i) (prows p))).
    assert (LN : length (map (fun r : R => co r i) (prows p)) = length (prows p)) by apply map_length.
    assert (FS : map fst l = Qs (ppQ b)).
    { unfold l. revert LR. generalize (prows p) (Qs (ppQ b)). clear. intros rs qs. revert rs. induction qs as [|q qs IH]; intros [|r rs] H; cbn [map combine length] in *; try reflexivity; [lia|]. cbn [fst]. f_equal. apply IH. lia. }
    pose proof (base_Q b WB) as (ND & PR).
    assert (C : eqz (qprod b) (crt (qprod b) l) (co X i)).
    { unfold qprod. rewrite <- FS. apply crt_ok; rewrite ?FS.
      - exact ND.
      - intros q Hq. rewrite Forall_forall in PR. apply (PR q Hq).
      - intros qr IQ. destruct (In_nth _ _ (0, 0) IQ) as (j & Hj & <-). unfold l in Hj |- *. rewrite combine_length, LN in Hj.
        assert (NE : nth j (combine (Qs (ppQ b)) (map (fun r : R => co r i) (prows p))) (0, 0) = (nth j (Qs (ppQ b)) 0, co (nth j (prows p) R0) i)).
        { assert (HJ : (j < length (Qs (ppQ b)))%nat /\ (j < length (prows p))%nat) by lia. revert HJ. generalize (prows p) (Qs (ppQ b)). clear. intros rs qs. revert rs j. induction qs as [|q qs IH]; intros [|r rs] [|j] H; cbn [map combine length nth] in *; try lia; [reflexivity|apply IH; lia]. }
        rewrite NE. cbn [fst snd]. apply HR; [lia|exact Hi]. }
    destruct C as [c C]. match goal with |- (?t | ?x mod _ - ?y) => change (eqz t (x mod t) y) end. rewrite (eqz_mod t). replace (crt (qprod b) l) with (co X i + c * qprod b) by lia.
    replace (2 * (t * (co X i + c * qprod b)) + qprod b) with (2 * (t * co X i) + qprod b + t * c * (2 * qprod b)) by ring. rewrite Z.div_add by lia. exists c. ring.
  Qed.
  Lemma decode_ok (p : poly N) X (m : R) v : residues (Qs (ppQ b)) (prows p) X -> (forall i, (i < N)%nat -> (t | (2 * (t * co X i) + qprod b) / (2 * qprod b) - co m i)) -> carries t root m v ->
    length (DecodeInt b root p) = N /\ forall i, (i < N)%nat -> 2 * Z.abs (nth i (DecodeInt b root p) 0) < t /\ (t | nth i (DecodeInt b root p) 0 - v i).
  Proof using WB OKT HN.
    intros HR HM HC. unfold DecodeInt. split; [rewrite map_length, seq_length; reflexivity|]. intros i Hi. set (y := ntt (Mod t root) (ScaleDown b p)).
    assert (EN : nth i (map (fun i => dec_word t (co y (slot_pos N i))) (seq 0 N)) 0 = dec_word t (co y (slot_pos N i))).
    { set (g := fun i => dec_word t (co y (slot_pos N i))). rewrite (nth_indep _ 0 (g 0%nat)) by (rewrite map_length, seq_length; exact Hi). rewrite map_nth, seq_nth by exact Hi. reflexivity. }
    rewrite EN. pose proof (ntt_range (Mod t root) OKT (ScaleDown b p) _ (pos_lt k HN i Hi)) as RG. cbn [mq] in RG. fold y in RG.
    assert (CV : eqz t (co y (slot_pos N i)) (v i)).
    { unfold y. apply (carries_eqm t root OKT m (ScaleDown b p) v); [|exact HC|exact Hi]. symmetry. etransitivity; [apply (scaledown_ok p X HR)|]. apply eqm_co. intros x Hx. rewrite co_mkR by exact Hx. apply HM. exact Hx. }
    destruct OKT as (PT & T2 & _). cbn [mq] in PT, T2. assert (OD : t mod 2 = 1).
    { destruct (Z.mod_pos_bound t 2 ltac:(lia)). destruct (Z.eq_dec (t mod 2) 0) as [E|]; [|lia]. apply Z.mod_divide in E; [|lia]. destruct (prime_divisors t PT 2 E) as [|[|[|]]]; lia. }
    pose proof (Z.div_mod t 2 ltac:(lia)) as DM. unfold dec_word. destruct CV as [c CV]. destruct (Z.ltb_spec (t / 2) (co y (slot_pos N i))) as [G|G].
    - split; [lia|]. exists (c - 1). lia.
    - split; [lia|]. exists c. lia.
  Qed.
End Codec.
