(** Concrete, non-trivial cases meeting the hypotheses of the theorems of PropsCkks.v, PropsRescale.v, PropsConst.v and PropsMulRelin.v
    (the parameters of Instance.v, two parties, three moduli). *)
From Flocq Require Import Core BinarySingleNaN.
From Coq Require Import Znumtheory Setoid Morphisms Reals Lra.
From Verif Require Import Base IdSetModel IdSetSpec IdSetProofs KeySetModel NumTheory Negacyclic Ntt Word BasisExt BasisExtProofs Rows RlweModel KeyGenModel SchemeSpec ExtProd ExtProps Galois KeyGenProofs Instance CtModel CtSpec CtProofs EncDecProofs HeapModel HeapProofs PropsEnc KeySwitchModel Digits KsLoops RotProofs MulProofs PropsKeySwitch FloatModel CkksFloat CkksModel FloatProofs CkksFloatProofs CkksProofs CkksRescale PropsCkks PropsRescale PropsConst PropsMulRelin.
Open Scope Z_scope.

(** ciphertexts of n rows for "0" and the parties l, every component the encodings of one non-constant polynomial *)
Definition ex_ct (n : nat) (l : list string) : ctT 8 := map (fun id => (id, Pol (firstn n (prows (ex_pt false))) false)) (id0 :: l).
Lemma ex_ct_wf n l : (0 < n <= 3)%nat -> NoDup (id0 :: l) -> wfct ex_pp (n - 1) false (ex_ct n l).
Proof.
  destruct (rows_of_sample ex_pp 8 41 (ex_poly [30; -41; 7; 0; 0; 12; 1; -5]) ex_wf) as [_ S]; [apply bnd_poly; [lia|reflexivity]|].
  intros Hn ND. unfold ex_ct. split; [unfold mwf, keys; rewrite map_map; cbn; rewrite map_id; exact ND|]. split; [left; reflexivity|].
  intros id p H. assert (E : p = Pol (firstn n (prows (ex_pt false))) false) by (revert H; generalize (id0 :: l) as l'; induction l' as [|y l' IH]; cbn [map mget]; [discriminate|destruct (seq_dec id y); [congruence|exact IH]]). subst p.
  split; [cbn [prows]; rewrite firstn_length; cbn [length ex_pt prows rows_of]; unfold rows_of; rewrite tab_length; cbn; lia|]. split; [reflexivity|].
  intros j Hj. cbn [prows]. unfold row. rewrite nth_firstn by lia. apply S. cbn. lia.
Qed.
Lemma ex_nd1 : NoDup (id0 :: ["alice"%string]). Proof. repeat constructor; cbn; intuition discriminate. Qed.
Lemma ex_nd2 : NoDup (id0 :: ["alice"; "bob"]%string). Proof. repeat constructor; cbn; intuition discriminate. Qed.
Lemma ex_pool : pool_ok ex_pp (NewEvaluator ex_pp : evalst 8).
Proof.
  split; [|reflexivity]. split; [|split].
  - unfold NewEvaluator. cbn [ctxtPool]. repeat constructor; cbn; intuition.
  - left. reflexivity.
  - intros x [<-|[]]. split; reflexivity.
Qed.
(** C18, C19: scales 2^16 and 3 * 2^16, levels 2 and 1, different sets of parties *)
Definition sc1 : f64 := f_of_int 65536.
Definition sc3 : f64 := f_of_int 196608.
Lemma sc1_ok : B2R sc1 = 65536%R /\ is_finite sc1 = true.
Proof. destruct (f_of_int_ok 65536) as [A B]; [lia|]. split; [|exact B]. unfold sc1. rewrite A. apply rnd_fmt. apply fmt_int. lia. Qed.
Lemma sc3_ok : B2R sc3 = 196608%R /\ is_finite sc3 = true.
Proof. destruct (f_of_int_ok 196608) as [A B]; [lia|]. split; [|exact B]. unfold sc3. rewrite A. apply rnd_fmt. apply fmt_int. lia. Qed.
Example C18_nonvacuous : exists c0 c1 : ckct 8, wfp 8 ex_pp /\ order_ok ex_ord /\ pool_ok ex_pp (NewEvaluator ex_pp : evalst 8) /\
  (2 < length (Qm ex_pp))%nat /\ (1 < length (Qm ex_pp))%nat /\ wfct ex_pp 2 false (cv c0) /\ wfct ex_pp 1 false (cv c1) /\ csc c0 = csc c1 /\
  parties (cv c0) = ["alice"]%string /\ parties (cv c1) = ["alice"; "bob"]%string /\
  let sks := map (fun id => (id, ex_sk id)) ["bob"; "alice"]%string in
  keys_ok ex_pp (fun _ => True) (fun _ => ex_s) sks /\ incl (parties (cv c0)) (keys sks) /\ incl (parties (cv c1)) (keys sks).
Proof.
  exists (CK (ex_ct 3 ["alice"%string]) sc1), (CK (ex_ct 2 ["alice"; "bob"]%string) sc1). split; [exact ex_wf|]. split; [exact ex_ord_ok|]. split; [exact ex_pool|].
  change (length (Qm ex_pp)) with 3%nat. split; [lia|]. split; [lia|]. split; [apply (ex_ct_wf 3); [lia|exact ex_nd1]|]. split; [apply (ex_ct_wf 2); [lia|exact ex_nd2]|].
  split; [reflexivity|]. split; [reflexivity|]. split; [reflexivity|]. cbv zeta. split; [|split].
  - split.
    + unfold mwf. repeat constructor; cbn; intuition discriminate.
    + intros id k Hk. assert (E : k = ex_sk id).
      { revert Hk. generalize ["bob"; "alice"]%string as l'. induction l' as [|y l' IH]; cbn [map mget]; [discriminate|destruct (seq_dec id y); [subst; congruence|exact IH]]. }
      subst k. split; [reflexivity|]. intros _. apply ex_sk_val.
  - intros x Hx. cbn in Hx |- *. intuition.
  - intros x Hx. cbn in Hx |- *. intuition.
Qed.
Example C19_nonvacuous : exists c0 c1 : ckct 8, wfct ex_pp 2 false (cv c0) /\ wfct ex_pp 1 false (cv c1) /\
  is_finite (csc c0) = true /\ is_finite (csc c1) = true /\ (0 < B2R (csc c0))%R /\ (0 < B2R (csc c1))%R /\ okratio (csc c0) (csc c1) /\ okratio (csc c1) (csc c0) /\
  align_factor (csc c0) (csc c1) = 3 /\ align_factor (csc c1) (csc c0) = 1.
Proof.
  destruct sc1_ok as [A1 A2], sc3_ok as [B1 B2].
  exists (CK (ex_ct 3 ["alice"%string]) sc1), (CK (ex_ct 2 ["alice"; "bob"]%string) sc3). cbn [cv csc].
  split; [apply (ex_ct_wf 3); [lia|exact ex_nd1]|]. split; [apply (ex_ct_wf 2); [lia|exact ex_nd2]|]. split; [exact A2|]. split; [exact B2|]. rewrite A1, B1.
  split; [lra|]. split; [lra|].
  assert (C : (B2R sc3 / B2R sc1 <= IZR (2 ^ 52 - 1))%R) by (rewrite A1, B1; change (2 ^ 52 - 1) with 4503599627370495; lra).
  split; [left; exact C|]. split; [left; rewrite A1, B1; change (2 ^ 52 - 1) with 4503599627370495; lra|].
  destruct (C19_factor sc1 sc3 A2 B2) as (F1 & _ & _ & F4 & _); [rewrite A1; lra|rewrite A1, B1; lra|exact C|]. split; [|exact F1].
  rewrite A1, B1 in F4. replace (196608 / 65536)%R with (IZR 3) in F4 by field. rewrite <- minus_IZR, <- abs_IZR in F4. apply lt_IZR in F4. lia.
Qed.
(** C26, C27, C30, C44: the scale 2^16 is divided once (257, then 193) for a wanted scale 200, twice for 2, never for 2^16 *)
Example C26_nonvacuous : wfct ex_pp 2 false (ex_ct 3 ["alice"; "bob"]%string) /\ f_eq sc1 f_zero = false /\ f_le (f_of_int 200) f_zero = false /\
  divisions ex_pp 2 sc1 (f_div (f_of_int 200) (f_of_int 2)) 1 /\ divisions ex_pp 2 sc1 (f_div (f_of_int 2) (f_of_int 2)) 2 /\ divisions ex_pp 2 sc1 (f_div sc1 (f_of_int 2)) 0 /\
  (forall i, (i <= 2)%nat -> f_ge (rscale ex_pp 2 (f_mul sc1 (f_mul sc1 sc1)) (S i)) (f_div (f_of_int 2) (f_of_int 2)) = true).
Proof.
  split; [apply (ex_ct_wf 3); [lia|exact ex_nd2]|]. split; [vm_compute; reflexivity|]. split; [vm_compute; reflexivity|].
  split; [|split; [|split]].
  - split; [lia|]. split; [|vm_compute; reflexivity]. intros i Hi. destruct i; [vm_compute; reflexivity|lia].
  - split; [lia|]. split; [|vm_compute; reflexivity]. intros i Hi. do 2 (destruct i; [vm_compute; reflexivity|]). lia.
  - split; [lia|]. split; [|vm_compute; reflexivity]. intros i Hi. lia.
  - intros i Hi. do 3 (destruct i; [vm_compute; reflexivity|]). lia.
Qed.
(** C29: an integer and a fraction *)
Example C29_nonvacuous : int_const (CInt (-7)) (-7) /\ int_const (CFloat sc3) 196608 /\
  let x := f_div (f_of_int 7) (f_of_int 2) in is_finite x = true /\ (Rabs (B2R x) < IZR (2 ^ 63))%R /\ (forall z, B2R x <> IZR z).
Proof.
  split; [left; reflexivity|]. split.
  - right; right; right. exists sc3. destruct sc3_ok as [A B]. split; [exact B|]. split; [exact A|]. left. reflexivity.
  - cbv zeta. destruct (f_of_int_ok 7) as [A7 F7]; [lia|]. destruct (f_of_int_ok 2) as [A2 F2]; [lia|].
    assert (E : B2R (f_div (f_of_int 7) (f_of_int 2)) = (7 / 2)%R) by (vm_compute; lra).
    split; [vm_compute; reflexivity|]. rewrite E. split.
    + rewrite Rabs_pos_eq by lra. change (2 ^ 63) with 9223372036854775808. lra.
    + intros z Hz. assert (H : (7 = IZR (2 * z))%R) by (rewrite mult_IZR; lra). apply eq_IZR in H. lia.
Qed.
(** C30: a plaintext; C44: relinearisation keys of the two parties (generated by GenRelinearizationKey) *)
Example C30_nonvacuous : (2 < length (prows (ex_pt false)))%nat /\ (forall j, (j <= 2)%nat -> inr (Qi ex_pp j) (row (prows (ex_pt false)) j)) /\
  plain_of ex_pp 2 (ex_pt false) (ex_poly [30; -41; 7; 0; 0; 12; 1; -5]) /\ divisions ex_pp 2 (f_mul sc1 (f_of_int 1)) (f_div (f_of_int 200) (f_of_int 2)) 1.
Proof.
  destruct (rows_of_sample ex_pp 8 41 (ex_poly [30; -41; 7; 0; 0; 12; 1; -5]) ex_wf) as [_ S]; [apply bnd_poly; [lia|reflexivity]|].
  split; [cbn; lia|]. split; [|split].
  - intros j Hj. apply S. cbn. lia.
  - intros j Hj. apply S. cbn. lia.
  - split; [lia|]. split; [|vm_compute; reflexivity]. intros i Hi. destruct i; [vm_compute; reflexivity|lia].
Qed.
Example C44_nonvacuous : exists c0 c1 : ckct 8, let rs := map (fun id => (id, ex_rlk id)) ["bob"; "alice"]%string in
  wfct ex_pp 2 false (cv c0) /\ wfct ex_pp 2 false (cv c1) /\ small_ok ex_pp 3 /\ (exists a u, mget Z.eq_dec ex_crs 0 = Some a /\ mget Z.eq_dec ex_crs (-1) = Some u /\ crs_ok ex_pp a /\ crs_ok ex_pp u) /\
  (forall id, In id (parties (cv c0)) \/ In id (parties (cv c1)) -> has_relin_key ex_pp ex_crs rs 3 1 id ex_s ex_s) /\
  divisions ex_pp 2 (f_mul (csc c0) (csc c1)) (f_div (f_of_int 200) (f_of_int 2)) 1 /\ f_eq (f_mul (csc c0) (csc c1)) f_zero = false.
Proof.
  destruct C20_nonvacuous as (op0 & op1 & out & W0 & W1 & _ & _ & _ & _ & K & _).
  exists (CK op0 (f_of_int 256)), (CK op1 (f_of_int 256)). cbv zeta. cbn [cv csc]. split; [exact W0|]. split; [exact W1|]. split; [exact ex_small|].
  split; [|split; [exact K|split; [|vm_compute; reflexivity]]].
  - assert (I0 : In 0 [0; -1; -2; 1; 2]) by (cbn; tauto). assert (I1 : In (-1) [0; -1; -2; 1; 2]) by (cbn; tauto).
    eexists _, _. split; [exact (proj1 (ex_crs_get 0 I0))|]. split; [exact (proj1 (ex_crs_get (-1) I1))|]. split; [exact (proj2 (ex_crs_get 0 I0))|exact (proj2 (ex_crs_get (-1) I1))].
  - split; [lia|]. split; [|vm_compute; reflexivity]. intros i Hi. destruct i; [vm_compute; reflexivity|lia].
Qed.
