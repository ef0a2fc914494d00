(** The setup of cnn/cnn_test.go (genTestParams: common reference string and keys), its decision loop, and the conditions of the end-to-end theorem for [cnn_prog]. *)
From Flocq Require Import Core BinarySingleNaN.
From Coq Require Import Znumtheory Setoid Morphisms Reals Lra.
From Verif Require Import Base IdSetModel KeySetModel NumTheory Negacyclic Ntt Word BasisExt BasisExtProofs DecompProofs BasisSpec Rows RlweModel KeyGenModel SchemeSpec ExtProd ExtProps Galois KeyGenProofs Instance CtModel CtSpec CtProofs EncDecProofs EncMsgModel KeySwitchModel Digits KsLoops RotProofs ConjProofs MulProofs PropsEnc PropsKeySwitch PropsRotate FloatModel CkksFloat CkksModel FloatProofs CkksFloatProofs CkksProofs CkksRescale PropsCkks PropsRescale PropsReserved Slots PropsSlots CkksSlots CkksCircuit PropsCkksCircuit PropsCkksScale PropsIndex Shipped BfvModel PropsShipped CkksBudget CkksHoist PropsCkksHoist PropsCkksShipped CkksTight CnnModel CnnNet CnnProgProofs.
Open Scope Z_scope.

(** ** common reference string and keys *)
(** cnn_test.go:187: the rotation amounts passed to AddCRS *)
Definition cnn_rots : list Z := [14; 15; 384; 512; 640; 768; 896; 8191; 8190; 8188; 8184].
(** cnn_test.go:187-191: the CRS of NewParameters, then AddCRS for each amount; [us i] are the words the uniform samplers delivered for amount number i *)
Definition cnn_crs {N} pp (logN : nat) (u : Z -> nat -> polyQP N) (us : nat -> nat -> polyQP N) : crsT N :=
  add_crs_all pp (NewCRS pp logN u) (combine cnn_rots (map us (seq 0 (length cnn_rots)))).
(** cnn_test.go:200-202: rotation keys for these amounts and for all powers of two *)
Definition cnn_keyrots (logN : nat) : list Z := cnn_rots ++ defaults logN.
(** cnn_test.go:204-217: one party's keys (no conjugation key) *)
Definition cnn_generated {N} (pp : rparams) (B T : Z) (crs : crsT N) (rs : rlkset N) (rk : rotset N) (sks : gomap string (secretKey N)) (rots : list Z) (pk : string -> publicKey N) (id : string) (s r : R N) : Prop :=
  exists ss sr sb sd sv se (eb ed ev : nat -> R N) e, is_sample pp T s ss /\ is_sample pp T r sr /\ is_sample pp B e se /\
    (forall k, (k < beta pp (maxLevel pp))%nat -> is_sample pp B (eb k) (sb k) /\ is_sample pp B (ed k) (sd k) /\ is_sample pp B (ev k) (sv k)) /\
    let sk := genSecretKeyFromSampler pp id ss in
    mget seq_dec sks id = Some sk /\
    GenPublicKey pp crs sk se = Ok (pk id) /\
    GenRelinearizationKey pp crs sk (genSecretKeyFromSampler pp id sr) sb sd sv = rlk_get rs id /\
    (forall i, In i rots -> exists smp e, (forall j, (j < beta pp (maxLevel pp))%nat -> is_sample pp B (e j) (smp j)) /\ GenRotationKey pp crs i sk smp = rk_get rk id i).

(** ** the decision (cnn_test.go:166-174): index of the largest value above -100, else -1 *)
Definition decide10 (value : nat -> RR) : Z := fst (fold_left (fun mx i => if Rlt_dec (snd mx) (value i) then (Z.of_nat i, value i) else mx) (seq 0 10) (-1, (-100)%R)).
Lemma decide10_ok value c : (c < 10)%nat -> (-100 < value c)%R -> (forall d, (d < 10)%nat -> d <> c -> (value d < value c)%R) -> decide10 value = Z.of_nat c.
Proof.
  intros Hc H0 H. unfold decide10. set (f := fun (mx : Z * RR) i => if Rlt_dec (snd mx) (value i) then (Z.of_nat i, value i) else mx).
  assert (X : forall n, (n <= 10)%nat -> let m := fold_left f (seq 0 n) (-1, (-100)%R) in ((c < n)%nat -> m = (Z.of_nat c, value c)) /\ ((n <= c)%nat -> (snd m < value c)%R)).
  { induction n as [|n IH]; intros Hn; [cbn; split; [lia|intros _; exact H0]|]. destruct (IH ltac:(lia)) as [I1 I2]. rewrite seq_S, fold_left_app. cbn [fold_left Nat.add]. set (m := fold_left f (seq 0 n) (-1, (-100)%R)) in *. unfold f. split; intros Hcn.
    - destruct (Nat.eq_dec n c) as [->|NE].
      + destruct (Rlt_dec (snd m) (value c)) as [_|N]; [reflexivity|]. exfalso. apply N. apply I2. lia.
      + rewrite I1 by lia. cbn [snd]. destruct (Rlt_dec (value c) (value n)) as [L|_]; [|reflexivity]. specialize (H n ltac:(lia) NE). lra.
    - destruct (Rlt_dec (snd m) (value n)) as [L|_]; [cbn [snd]; apply H; lia|apply I2; lia]. }
  destruct (X 10%nat (le_n _)) as [X1 _]. cbv zeta in X1. rewrite X1 by exact Hc. reflexivity.
Qed.
(** within e of values where class c leads by more than 2 e, the decision is c *)
Lemma decide10_near (out : nat -> RR) value c e : (c < 10)%nat -> (forall d, (d < 10)%nat -> (Rabs (value d - out d) <= e)%R) -> (-100 + e < out c)%R -> (forall d, (d < 10)%nat -> d <> c -> (out d + 2 * e < out c)%R) -> decide10 value = Z.of_nat c.
Proof.
  intros Hc HE H0 H. assert (E : forall d, (d < 10)%nat -> (out d - e <= value d <= out d + e)%R) by (intros d Hd; specialize (HE d Hd); apply Rabs_le_inv in HE; lra).
  apply decide10_ok; [exact Hc|specialize (E c Hc); lra|]. intros d Hd ND. specialize (H d Hd ND). pose proof (E c Hc). pose proof (E d Hd). lra.
Qed.

(** ** AddCRS *)
Lemma add_crs_in {N} pp hist : forall (crs : crsT N) k, In k (map fst hist) -> exists v, In (k, v) hist /\ mget Z.eq_dec (add_crs_all pp crs hist) k = Some (crs_entry pp v).
Proof.
  induction hist as [|[i v] hist IH]; intros crs k H; [destruct H|]. cbn [add_crs_all fold_left fst snd]. fold (add_crs_all pp (AddCRS pp crs i v) hist).
  destruct (in_dec Z.eq_dec k (map fst hist)) as [I|NI].
  - destruct (IH (AddCRS pp crs i v) k I) as (v' & A & B). exists v'. split; [right; exact A|exact B].
  - destruct H as [<-|H]; [|contradiction]. exists v. split; [left; reflexivity|]. rewrite add_crs_other by exact NI. unfold AddCRS. cbn [fst]. apply (mget_mset_eq Z.eq_dec).
Qed.
Section Crs.
  Context {N : nat} (pp : rparams) (WF : wfp N pp) (logN : nat) (EN : N = (2 ^ logN)%nat) (HL : (0 < logN)%nat).
  Variables (u : Z -> nat -> polyQP N) (us : nat -> nat -> polyQP N).
  Hypothesis HU : forall i j, (j < beta pp (maxLevel pp))%nat -> wordsQP pp (u i j).
  Hypothesis HUS : forall i j, (j < beta pp (maxLevel pp))%nat -> wordsQP pp (us i j).
  Notation crs := (cnn_crs pp logN u us).
  Lemma hist_fst : map fst (combine cnn_rots (map us (seq 0 (length cnn_rots)))) = cnn_rots.
  Proof. reflexivity. Qed.
  Lemma crs_get_new k : In k cnn_rots -> exists c, mget Z.eq_dec crs k = Some c /\ crs_ok pp c.
  Proof.
    intros H. destruct (add_crs_in pp (combine cnn_rots (map us (seq 0 (length cnn_rots)))) (NewCRS pp logN u) k) as (v & A & B); [rewrite hist_fst; exact H|].
    exists (crs_entry pp v). split; [exact B|]. apply in_combine_r in A. apply in_map_iff in A. destruct A as (i & <- & _). apply (crs_entry_ok pp WF). intros j Hj. apply HUS. exact Hj.
  Qed.
  Lemma crs_get_old k : ~ In k cnn_rots -> mget Z.eq_dec crs k = mget Z.eq_dec (NewCRS pp logN u) k.
  Proof. intros H. apply add_crs_other. rewrite hist_fst. exact H. Qed.
  Lemma cnn_entries i : In i ([0; -1; -2] ++ cnn_keyrots logN) -> exists c, mget Z.eq_dec crs i = Some c /\ crs_ok pp c.
  Proof.
    intros H. destruct (in_dec Z.eq_dec i cnn_rots) as [I|NI]; [apply crs_get_new; exact I|]. rewrite crs_get_old by exact NI. apply (kcrs_setup pp WF logN HL u HU). unfold cnn_keyrots in H. rewrite !in_app_iff in *. tauto.
  Qed.
  (** every rotation of every program is served by these keys *)
  Lemma cnn_krots prog : krots crs prog (cnn_keyrots logN).
  Proof.
    intros i k j _ q NZ U. assert (HN : 0 < Z.of_nat (N / 2)) by (rewrite EN, (pow_half logN HL); apply Z.pow_pos_nonneg; lia). pose proof (Z.mod_pos_bound k (Z.of_nat (N / 2)) HN) as MB. fold q in MB. unfold cnn_keyrots. apply in_app_iff.
    destruct U as [[A ->]|(A & t & T1 & T2 & ->)].
    - destruct (in_dec Z.eq_dec q cnn_rots) as [I|NI]; [left; exact I|right]. rewrite crs_get_old in A by exact NI. apply (mget_In_keys Z.eq_dec) in A. apply (kcrs_in pp logN HL u) in A. destruct A as [A|A]; [cbn [In] in A; lia|exact A].
    - right. apply (default_index_pow logN (2 ^ t) HL). rewrite <- EN. exists t. split; [exact T1|]. split; [reflexivity|]. destruct (Z.le_gt_cases (2 ^ t) q) as [L|G]; [lia|]. exfalso.
      rewrite Z.bits_above_log2 in T2; [discriminate|lia|]. apply Z.log2_lt_pow2; lia.
  Qed.
  Lemma crs_some k : In k (cnn_keyrots logN) -> mget Z.eq_dec crs k <> None.
  Proof. intros H. destruct (cnn_entries k) as (c & -> & _); [apply in_app_iff; right; exact H|discriminate]. Qed.
End Crs.

(** ** hoisting in [cnn_prog]: the forms are those of the operands, the amounts are in the CRS *)
Fixpoint xwellb (amts : list Z) (n : nat) (src : list nat) (prog : list xinstr) : bool :=
  match prog with
  | nil => true
  | XForm i :: prog => (i <? n)%nat && xwellb amts n (src ++ [i]) prog
  | XMul i j a b :: prog => (nth a src n =? i)%nat && (nth b src n =? j)%nat && (a <? length src)%nat && (b <? length src)%nat && xwellb amts (S n) src prog
  | XRot i k a :: prog => (nth a src n =? i)%nat && (a <? length src)%nat && (if in_dec Z.eq_dec k amts then true else false) && xwellb amts (S n) src prog
  | _ :: prog => xwellb amts (S n) src prog
  end.
Lemma xwellb_ok {N} (crs : crsT N) amts : (forall k, In k amts -> let q := k mod Z.of_nat (N / 2) in q = 0 \/ mget Z.eq_dec crs q <> None) ->
  forall prog n src, xwellb amts n src prog = true -> xwell crs n src prog.
Proof.
  intros H prog. assert (G : forall (src : list nat) a i d, (nth a src d =? i)%nat = true -> (a <? length src)%nat = true -> nth_error src a = Some i).
  { intros src a i d E L. apply Nat.eqb_eq in E. apply Nat.ltb_lt in L. rewrite (nth_error_nth' src d L), E. reflexivity. }
  induction prog as [|i prog IH]; intros n src W; [exact Logic.I|]. destruct i as [k|i|i j a b|i k a|i]; cbn [xwellb xwell] in *.
  - apply IH. exact W.
  - apply andb_prop in W as [W1 W2]. split; [apply Nat.ltb_lt; exact W1|apply IH; exact W2].
  - apply andb_prop in W as [W W5]. apply andb_prop in W as [W W4]. apply andb_prop in W as [W W3]. apply andb_prop in W as [W1 W2]. split; [apply (G src a i n); assumption|]. split; [apply (G src b j n); assumption|]. apply IH. exact W5.
  - apply andb_prop in W as [W W4]. apply andb_prop in W as [W W3]. apply andb_prop in W as [W1 W2]. split; [apply (G src a i n); assumption|]. split; [|apply IH; exact W4]. destruct (in_dec Z.eq_dec k amts) as [I|]; [|discriminate W3]. apply H. exact I.
  - apply IH. exact W.
Qed.
Lemma cnn_xwell {N} pp (logN : nat) (u : Z -> nat -> polyQP N) us : wfp N pp -> N = (2 ^ logN)%nat -> (14 <= logN)%nat ->
  (forall i j, (j < beta pp (maxLevel pp))%nat -> wordsQP pp (u i j)) -> (forall i j, (j < beta pp (maxLevel pp))%nat -> wordsQP pp (us i j)) -> xwell (cnn_crs pp logN u us) 16 nil cnn_prog.
Proof.
  intros WF EN HL HU HUS. set (amts := [0; 1; 14; 15; 128; 256; 384; 512; 640; 768; 896]). apply (xwellb_ok _ amts); [|vm_compute; reflexivity].
  assert (NH : 8192 <= Z.of_nat (N / 2)). { rewrite EN, (pow_half logN) by lia. change 8192 with (2 ^ 13). apply Z.pow_le_mono_r; lia. }
  intros k Hk q. assert (KB : 0 <= k < 8192 /\ (k = 0 \/ In k cnn_rots \/ k = 2 ^ 0 \/ k = 2 ^ 7 \/ k = 2 ^ 8)).
  { unfold amts in Hk. cbn [In] in Hk. unfold cnn_rots. cbn [In]. change (2 ^ 0) with 1. change (2 ^ 7) with 128. change (2 ^ 8) with 256. lia. }
  destruct KB as [KB1 KB2]. unfold q. rewrite Z.mod_small by lia. destruct KB2 as [->|KB2]; [left; reflexivity|right]. apply (crs_some pp WF logN ltac:(lia) u us HU HUS). unfold cnn_keyrots. apply in_app_iff.
  assert (DF : forall t, (t < 13)%nat -> In (2 ^ Z.of_nat t) (defaults logN)) by (intros t Ht; unfold defaults; apply in_map_iff; exists t; split; [reflexivity|apply in_seq; lia]).
  destruct KB2 as [I|[E|[E|E]]]; try rewrite E; [left; exact I|right; apply (DF 0%nat); lia|right; apply (DF 7%nat); lia|right; apply (DF 8%nat); lia].
Qed.

(** ** the iteration orders *)
Lemma cnn_w_ok w : (forall a b c, order_ok (w a b c)) -> forall n m, order_ok (cnn_w w n m).
Proof.
  intros O n m. assert (F : Forall (fun f : nat -> IdSetModel.order => forall m, order_ok (f m)) (cnn_orders w)).
  { unfold cnn_orders. cbv zeta. repeat (apply Forall_app; split); repeat (constructor; [intros; apply O|]); repeat (first [apply Forall_nil|apply Forall_app; split|constructor; [intros; apply O|]]). }
  unfold cnn_w. destruct (nth_in_or_default n (cnn_orders w) (fun _ => w 0%nat 0%nat 0%nat)) as [I|E]; [|rewrite E; apply O]. rewrite Forall_forall in F. apply (F _ I).
Qed.

(** ** conjugation keys can be added: the theorem for programs asks for them, the network does not use them *)
Lemma add_conj {N} pp (B T : Z) (crs : crsT N) rs rk sks rots pk (s r : string -> R N) P : wfp N pp -> 0 <= B -> small_ok pp B -> small_ok pp T -> (exists c, mget Z.eq_dec crs (-2) = Some c /\ crs_ok pp c) ->
  (forall id, In id P -> id <> id0 /\ cnn_generated pp B T crs rs rk sks rots pk id (s id) (r id)) -> exists ck : conjset N, forall id, In id P -> id <> id0 /\ kgenerated pp B T crs rs rk ck sks rots pk id (s id) (r id).
Proof.
  intros WF HB SB ST (c & GC & CO) H. set (smp := fun _ : nat => rows_of pp (@R0 N)).
  set (cj := fun id => match mget seq_dec sks id with Some sk => match GenConjugationKey pp crs sk smp with Ok k => k | Panic => CJK id nil end | None => CJK id nil end).
  exists (map (fun x => (x, cj x)) (nodup string_dec P)). intros id Hid. destruct (H id Hid) as [NI (ss & sr & sb & sd & sv & se & eb & ed & ev & e & A1 & A2 & A3 & A4 & A5)]. split; [exact NI|].
  cbv zeta in A5. destruct A5 as (A5 & A6 & A7 & A8). exists ss, sr, sb, sd, sv, se, eb, ed, ev, e. split; [exact A1|]. split; [exact A2|]. split; [exact A3|]. split; [exact A4|]. cbv zeta. split; [exact A5|]. split; [exact A6|]. split; [exact A7|]. split; [exact A8|].
  assert (SZ : forall j, (j < beta pp (maxLevel pp))%nat -> is_sample pp B (@R0 N) (smp j)). { intros j _. apply (rows_of_sample pp N B R0 WF). intros i Hi. rewrite co_R0. cbn. exact HB. }
  exists smp, (fun _ => R0). split; [exact SZ|].
  assert (SV : mval pp (maxLevel pp) (sk_val (genSecretKeyFromSampler pp id ss)) (fun _ => s id)) by (apply (genSecretKey_ok pp WF T (s id) id _ ST A1)).
  destruct (GenConjugationKey_ok pp WF B (fun _ => R0) smp crs c (genSecretKeyFromSampler pp id ss) (s id) SB SZ SV GC CO) as (k & K1 & _). rewrite K1. unfold ks_get.
  assert (G : forall l, In id l -> mget seq_dec (map (fun x => (x, cj x)) l) id = Some (cj id)).
  { induction l as [|y l IH]; intros I; [destruct I|]. cbn [map mget]. destruct (seq_dec id y) as [->|NE]; [reflexivity|]. apply IH. destruct I as [I|I]; [congruence|exact I]. }
  rewrite G by (apply nodup_In; exact Hid). unfold cj. rewrite A5, K1. reflexivity.
Qed.

(** ** keys for a given CRS and given rotation amounts exist *)
Section Keys.
  Context {N : nat} (pp : rparams) (WF : wfp N pp) (crs : crsT N) (rots : list Z).
  Hypothesis HCRS : forall i, In i ([0; -1; -2] ++ rots) -> exists c, mget Z.eq_dec crs i = Some c /\ crs_ok pp c.
  Hypothesis HNN : forall i, In i rots -> 0 <= i.
  (** whatever secrets and errors within the bounds the samplers deliver, every party can generate all its keys *)
  Variables (B T : Z) (HB : small_ok pp B) (HT : small_ok pp T) (s r e : string -> R N).
  Hypotheses (Hs : forall id, bnd (s id) T) (Hr : forall id, bnd (r id) T) (He : forall id, bnd (e id) B).
  Notation smp id := (rows_of pp (e id)).
  Notation sk id := (genSecretKeyFromSampler pp id (rows_of pp (s id))). Notation skr id := (genSecretKeyFromSampler pp id (rows_of pp (r id))).
  Lemma keys_exist P : exists (rs : rlkset N) (rk : rotset N) sks pk, mwf sks /\ (forall id k, mget seq_dec sks id = Some k -> In id P) /\
    forall id, In id P -> cnn_generated pp B T crs rs rk sks rots pk id (s id) (r id).
  Proof.
    assert (SE : forall id, is_sample pp B (e id) (smp id)) by (intros id; apply (rows_of_sample pp N B (e id) WF (He id))).
    assert (SS : forall id, is_sample pp T (s id) (rows_of pp (s id))) by (intros id; apply (rows_of_sample pp N T (s id) WF (Hs id))).
    assert (SR : forall id, is_sample pp T (r id) (rows_of pp (r id))) by (intros id; apply (rows_of_sample pp N T (r id) WF (Hr id))).
    assert (SV : forall id, mval pp (maxLevel pp) (sk_val (sk id)) (fun _ => s id)) by (intros id; apply (genSecretKey_ok pp WF T (s id) id _ HT (SS id))).
    assert (SRV : forall id, mval pp (maxLevel pp) (sk_val (skr id)) (fun _ => r id)) by (intros id; apply (genSecretKey_ok pp WF T (r id) id _ HT (SR id))).
    assert (CE : forall i, In i [0; -1; -2] \/ In i rots -> exists c, mget Z.eq_dec crs i = Some c /\ crs_ok pp c) by (intros i Hi; apply HCRS; apply in_app_iff; exact Hi).
    assert (HPK : forall id, exists k, GenPublicKey pp crs (sk id) (smp id) = Ok k).
    { intros id. destruct (CE 0) as (c0 & G & C); [left; cbn; tauto|]. destruct (GenPublicKey_ok pp WF B (e id) (smp id) crs _ (sk id) (s id) HB (SE id) (SV id) G C) as (k & A & _). exists k. exact A. }
    assert (HRL : forall id, exists k, GenRelinearizationKey pp crs (sk id) (skr id) (fun _ => smp id) (fun _ => smp id) (fun _ => smp id) = Ok k).
    { intros id. destruct (CE 0) as (c1 & G1 & C1); [left; cbn; tauto|]. destruct (CE (-1)) as (c3 & G3 & C3); [left; cbn; tauto|].
      destruct (GenRelinearizationKey_ok pp WF B (fun _ => e id) (fun _ => e id) (fun _ => e id) (fun _ => smp id) (fun _ => smp id) (fun _ => smp id) crs c1 c3 (sk id) (skr id) (s id) (r id) HB) as (k & A & _); trivial.
      - intros k _. split; [apply SE|]. split; apply SE.
      - exists k. exact A. }
    assert (HRT : forall id i, In i rots -> exists k, GenRotationKey pp crs i (sk id) (fun _ => smp id) = Ok k).
    { intros id i Hi. destruct (CE i (or_intror Hi)) as (ci & G & C). destruct (GenRotationKey_ok pp WF B (fun _ => e id) (fun _ => smp id) crs i ci i ci (sk id) (s id) HB (fun _ _ => SE id) (SV id) G) as (k & A & _); [|trivial..|exists k; exact A].
      destruct (Z.ltb_spec i 0) as [L|_]; [|reflexivity]. specialize (HNN i Hi). lia. }
    set (rl := fun id => match GenRelinearizationKey pp crs (sk id) (skr id) (fun _ => smp id) (fun _ => smp id) (fun _ => smp id) with Ok k => k | Panic => RLK id nil nil nil end).
    set (rt := fun id i => match GenRotationKey pp crs i (sk id) (fun _ => smp id) with Ok k => k | Panic => RTK id i nil end).
    set (pk := fun id => match GenPublicKey pp crs (sk id) (smp id) with Ok k => k | Panic => PK id dQP dQP end).
    set (names := nodup string_dec P).
    assert (GET : forall (V : Type) (f : string -> V) id, mget seq_dec (map (fun x => (x, f x)) names) id = if in_dec string_dec id P then Some (f id) else None).
    { intros V f id. assert (X : forall l, mget seq_dec (map (fun x => (x, f x)) l) id = if in_dec string_dec id l then Some (f id) else None).
      { induction l as [|y l IH]; [reflexivity|]. cbn [map mget]. destruct (seq_dec id y) as [->|NE]; [destruct (in_dec string_dec y (y :: l)) as [|NI]; [reflexivity|exfalso; apply NI; left; reflexivity]|].
        rewrite IH. destruct (in_dec string_dec id l) as [I|I]; destruct (in_dec string_dec id (y :: l)) as [J|J]; try reflexivity; [exfalso; apply J; right; exact I|]. destruct J as [J|J]; [congruence|contradiction]. }
      rewrite X. destruct (in_dec string_dec id names) as [I|I]; destruct (in_dec string_dec id P) as [J|J]; try reflexivity; exfalso; unfold names in I; rewrite nodup_In in I; contradiction. }
    exists (map (fun x => (x, rl x)) names), (map (fun x => (x, map (fun i => (i, rt x i)) rots)) names), (map (fun x => (x, sk x)) names), pk.
    split; [|split].
    - unfold mwf, keys. rewrite map_map. cbn [fst]. rewrite map_id. apply NoDup_nodup.
    - intros id k H. rewrite (GET _ (fun x => sk x)) in H. destruct (in_dec string_dec id P) as [I|I]; [exact I|discriminate H].
    - intros id Hid. exists (rows_of pp (s id)), (rows_of pp (r id)), (fun _ => smp id), (fun _ => smp id), (fun _ => smp id), (smp id), (fun _ => e id), (fun _ => e id), (fun _ => e id), (e id).
      split; [apply SS|]. split; [apply SR|]. split; [apply SE|]. split; [intros k _; split; [apply SE|]; split; apply SE|]. cbv zeta. split; [|split; [|split]].
      + rewrite (GET _ (fun x => sk x)). destruct (in_dec string_dec id P) as [I|I]; [reflexivity|contradiction].
      + destruct (HPK id) as [k A]. unfold pk. rewrite A. reflexivity.
      + destruct (HRL id) as [k A]. unfold rlk_get. rewrite (GET _ rl). destruct (in_dec string_dec id P) as [I|I]; [|contradiction]. unfold rl. rewrite A. reflexivity.
      + intros i Hi. exists (fun _ => smp id), (fun _ => e id). split; [intros j _; apply SE|]. destruct (HRT id i Hi) as [k A]. unfold rk_get. rewrite (GET _ (fun x => map (fun i => (i, rt x i)) rots)). destruct (in_dec string_dec id P) as [I|I]; [|contradiction].
        assert (Y : mget Z.eq_dec (map (fun i => (i, rt id i)) rots) i = Some (rt id i)).
        { clear - Hi. induction rots as [|y l IH]; [destruct Hi|]. cbn [map mget]. destruct (Z.eq_dec i y) as [->|NE]; [reflexivity|]. apply IH. destruct Hi as [Hi|Hi]; [congruence|exact Hi]. }
        rewrite Y. unfold rt. rewrite A. reflexivity.
  Qed.
End Keys.
