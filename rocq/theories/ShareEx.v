(** C32: the schedule that returns a wrong product, and cases that meet the hypotheses of the theorems of PropsShare.v. *)
From Flocq Require Import Core BinarySingleNaN.
From Coq Require Import Znumtheory.
From Verif Require Import Base IdSetModel IdSetSpec IdSetProofs KeySetModel NumTheory Negacyclic Ntt Word FloatModel CkksFloat BasisExt BasisExtProofs DecompProofs Rows RlweModel KeyGenModel SchemeSpec ExtProd ExtProps Galois KeyGenProofs Instance CtModel CtSpec CtProofs EncDecProofs PropsEnc KeySwitchModel Digits KsLoops RotProofs CkksModel CkksProofs PropsKeySwitch PropsCkks PropsCkksEx KsPool KsPoolProofs EvalPool EvalPoolProofs PropsPool ShareModel PropsShare.
Open Scope Z_scope.

(** parameters: N = 2, Q = 257, P = 241, so that the kernel can run the code *)
Definition y_pp : rparams := RP [Mod 257 16] [Mod 241 64] 1.
Lemma y_okm m : is_prime (mq m) = true -> 2 < mq m < 2 ^ 61 -> (mpsi m ^ 2 + 1) mod mq m = 0 -> okmod (N := 2) m.
Proof.
  intros A B C. apply is_prime_ok in A. split; [|split; assumption]. split; [assumption|]. split; [lia|]. split; [exists 1%nat; reflexivity|].
  apply Z.mod_divide in C; [|lia]. destruct C as [z Hz]. exists z. change (Z.of_nat 2) with 2. lia.
Qed.
Lemma y_wf : wfp 2 y_pp.
Proof.
  assert (F : Forall (okmod (N := 2)) (Qm y_pp ++ Pm y_pp)).
  { cbn. repeat (constructor; [apply y_okm; [vm_compute; reflexivity|cbn [mq]; lia|vm_compute; reflexivity]|]). constructor. }
  assert (OB : okbase (Qs y_pp ++ Ps y_pp)).
  { split.
    - cbn [Qs Ps y_pp Qm Pm map mq app]. repeat (constructor; [cbn; intuition discriminate|]). constructor.
    - unfold Qs, Ps. rewrite <- map_app. apply Forall_map. apply (Forall_impl _ (P := okmod (N := 2))); [|exact F]. intros m H. apply H. }
  assert (A : alpha y_pp = 1%nat) by reflexivity.
  constructor; trivial; rewrite ?A; cbn [y_pp Qm Pm gam length]; lia.
Qed.
Definition y_poly (a b : Z) : R 2 := mkR (fun i => match i with O => a | _ => b end).
Lemma y_bnd a b B : Z.abs a <= B -> Z.abs b <= B -> bnd (y_poly a b) B.
Proof. intros HA HB i Hi. unfold y_poly. rewrite co_mkR by assumption. destruct i; assumption. Qed.
Definition y_s : R 2 := y_poly 1 0.
Definition y_sk (id : string) : secretKey 2 := genSecretKeyFromSampler y_pp id (rows_of y_pp y_s).
Definition y_u (i : Z) (k : nat) : polyQP 2 :=
  QP (tab 1 (fun j => mkR (fun x => Z.of_nat (7 * x + 5 * k + 3 * j) + i + 10))) (tab 1 (fun j => mkR (fun x => Z.of_nat (9 * x + 4 * k + 2 * j) + i + 10))).
Definition y_crs : crsT 2 := NewCRS y_pp 1 y_u.
Definition y_e : R 2 := y_poly 0 1.
Definition y_smp (k : nat) := rows_of y_pp y_e.
Definition y_rlk (id : string) : relinKey 2 := match GenRelinearizationKey y_pp y_crs (y_sk id) (y_sk id) y_smp y_smp y_smp with Ok k => k | Panic => RLK id nil nil nil end.
Definition y_rs : rlkset 2 := [("alice"%string, y_rlk "alice"%string)].
(** the ciphertext (0, z): it decrypts to z times the secret key, which is 1 *)
Definition y_ct (z : Z) : ctT 2 := map (fun e => (fst e, Pol (rows_of y_pp (y_poly (snd e) 0)) false)) [(id0, 0); ("alice"%string, z)].
Definition y_pools : heap 2 := (map (fun e => (fst e, newSwk y_pp)) y_rs, map (fun e => (fst e, newSwk y_pp)) y_rs).
Definition y_call (z : Z) : thread 2 := match begin ex_ord (NewKeySwitcher y_pp) (CK (y_ct z) (f_of_int 256)) (CK (y_ct z) (f_of_int 256)) true with Ok t => t | Panic => Th (CK nil f_zero) (CK nil f_zero) true ex_ord (NewKeySwitcher y_pp) nil nil nil None end.
Definition y_dec (c : res (ckct 2)) : option Z := match c with Ok c => Some (co (phase y_pp (fun _ => y_s) (cv c) 0) 0 mod 257) | Panic => None end.

Lemma y_run : match returned y_pp y_crs (f_of_int 200) y_rs [0; 1; 0; 0]%nat [y_call 0; y_call 10] y_pools 0 with Some r => y_dec r | None => None end = Some 100.
Proof. Time vm_compute. reflexivity. Qed.
Lemma y_own : y_dec (own_product y_pp y_crs (f_of_int 200) y_rs (y_call 0)) = Some 0.
Proof. Time vm_compute. reflexivity. Qed.

Lemma y_small : small_ok y_pp 1.
Proof. split; [cbn; lia|]. intros k Hk. cbn in Hk. destruct k as [|k]; [vm_compute; discriminate|lia]. Qed.
Lemma y_smp_ok k : is_sample y_pp 1 y_e (y_smp k).
Proof. apply rows_of_sample; [exact y_wf|]. apply y_bnd; cbn; lia. Qed.
Lemma y_sk_val id : mval y_pp (maxLevel y_pp) (sk_val (y_sk id)) (fun _ => y_s).
Proof. apply (genSecretKey_ok y_pp y_wf 1); [exact y_small|]. apply rows_of_sample; [exact y_wf|]. apply y_bnd; cbn; lia. Qed.
Lemma y_crs_get i : In i [0; -1] -> mget Z.eq_dec y_crs i = Some (crs_entry y_pp (y_u i)) /\ crs_ok y_pp (crs_entry y_pp (y_u i)).
Proof.
  intros H. split; [cbn in H; repeat (destruct H as [<-|H]; [reflexivity|]); destruct H|].
  apply (crs_entry_ok y_pp y_wf). intros k Hk. assert (B : beta y_pp (maxLevel y_pp) = 1%nat) by (vm_compute; reflexivity). rewrite B in Hk.
  intros [j|j] V x Hx; cbn in V; cbn [fqp y_u qpQ qpP]; unfold row; rewrite nth_tab by lia; rewrite co_mkR by assumption; unfold Word.W; cbn in H; destruct H as [<-|[<-|[]]]; lia.
Qed.
Lemma y_key : has_relin_key y_pp y_crs y_rs 1 1 "alice"%string y_s y_s.
Proof.
  assert (SB : bnd y_s 1) by (apply y_bnd; cbn; lia).
  exists (y_sk "alice"%string), (y_sk "alice"%string), y_smp, y_smp, y_smp, (fun _ => y_e), (fun _ => y_e), (fun _ => y_e), (y_rlk "alice"%string).
  split; [apply y_sk_val|]. split; [apply y_sk_val|]. split; [exact SB|]. split; [exact SB|]. split; [intros k _; split; [|split]; apply y_smp_ok|]. split; [|reflexivity].
  assert (I0 : In 0 [0; -1]) by (cbn; tauto). assert (I1 : In (-1) [0; -1]) by (cbn; tauto).
  destruct (GenRelinearizationKey_ok y_pp y_wf 1 (fun _ => y_e) (fun _ => y_e) (fun _ => y_e) y_smp y_smp y_smp y_crs _ _ (y_sk "alice"%string) (y_sk "alice"%string) y_s y_s y_small (fun k _ => conj (y_smp_ok k) (conj (y_smp_ok k) (y_smp_ok k))) (y_sk_val _) (y_sk_val _) (proj1 (y_crs_get 0 I0)) (proj1 (y_crs_get (-1) I1)) (proj2 (y_crs_get 0 I0)) (proj2 (y_crs_get (-1) I1))) as (key & X & _).
  unfold y_rlk. rewrite X. reflexivity.
Qed.
Lemma y_ct_wf z : wfct y_pp 0 false (y_ct z).
Proof.
  split; [unfold mwf; cbn; repeat constructor; cbn; intuition discriminate|]. split; [left; reflexivity|].
  intros id p H. assert (E : exists a, p = Pol (rows_of y_pp (y_poly a 0)) false) by (unfold y_ct in H; cbn [map mget fst snd] in H; repeat match type of H with context [if ?b then _ else _] => destruct b end; [exists 0|exists z|discriminate]; congruence).
  destruct E as (a & ->). split; [reflexivity|]. split; [reflexivity|]. intros j Hj. assert (j = O) by lia. subst j.
  destruct (rows_of_sample y_pp 2 (Z.abs a) (y_poly a 0) y_wf) as [_ S]; [apply y_bnd; [lia|cbn; lia]|]. apply S. cbn. lia.
Qed.
Lemma y_ready z : call_ready y_pp y_rs (y_call z) /\ tc0 (y_call z) = CK (y_ct z) (f_of_int 256) /\ tc1 (y_call z) = CK (y_ct z) (f_of_int 256).
Proof.
  assert (G : good y_pp (CK (y_ct z) (f_of_int 256))) by (exists 0%nat; split; [cbn; lia|exact (wfct_shape y_pp _ _ (y_ct_wf z))]).
  split; [|split; reflexivity]. exists ex_ord, (NewKeySwitcher y_pp), (CK (y_ct z) (f_of_int 256)), (CK (y_ct z) (f_of_int 256)), true. split; [reflexivity|]. split; [exact ex_ord_ok|]. split; [apply sh_new|].
  split; [split; [exact G|split; [exact G|reflexivity]]|]. intros id Hid. assert (E : id = "alice"%string) by (cbn in Hid; intuition). subst id. discriminate.
Qed.
Lemma y_pools_ok : pools_ok y_pp y_rs y_pools.
Proof. destruct (fresh_sized y_pp y_rs) as (_ & _ & A & B & C). split; [exact A|]. split; assumption. Qed.
Lemma y_dec_some (r : option (res (ckct 2))) z : match r with Some r => y_dec r | None => None end = Some z -> exists c, r = Some (Ok c) /\ co (phase y_pp (fun _ => y_s) (cv c) 0) 0 mod 257 = z.
Proof. destruct r as [[c|]|]; cbn [y_dec]; intros H; [|discriminate|discriminate]. exists c. split; [reflexivity|]. injection H as H. exact H. Qed.
Lemma y_dec_ok (r : res (ckct 2)) z : y_dec r = Some z -> exists c, r = Ok c /\ co (phase y_pp (fun _ => y_s) (cv c) 0) 0 mod 257 = z.
Proof. destruct r as [c|]; cbn [y_dec]; intros H; [|discriminate]. exists c. split; [reflexivity|]. injection H as H. exact H. Qed.
Lemma y_run' : exists c, returned y_pp y_crs (f_of_int 200) y_rs [0; 1; 0; 0]%nat [y_call 0; y_call 10] y_pools 0 = Some (Ok c) /\ co (phase y_pp (fun _ => y_s) (cv c) 0) 0 mod 257 = 100.
Proof. exact (y_dec_some (returned y_pp y_crs (f_of_int 200) y_rs [0; 1; 0; 0]%nat [y_call 0; y_call 10] y_pools 0) 100 y_run). Qed.
Lemma y_own' : exists c, own_product y_pp y_crs (f_of_int 200) y_rs (y_call 0) = Ok c /\ co (phase y_pp (fun _ => y_s) (cv c) 0) 0 mod 257 = 0.
Proof. exact (y_dec_ok (own_product y_pp y_crs (f_of_int 200) y_rs (y_call 0)) 0 y_own). Qed.
(** The general claim is false: two Evaluators share a key set with one valid key. The first squares an encryption of 0, the second one of 10; the second call decomposes
    its operand between the first call's decomposition and multiplication. The first call returns an encryption of the second one's square 100 = 10 * 10;
    alone it returns an encryption of 0. *)
Theorem C32_interleaved_refuted : exists (pp : rparams) (crs : crsT 2) (pscale : f64) (rs : rlkset 2) (s : R 2) (t0 t1 : thread 2) (h : heap 2) (sch : list nat) c c',
  wfp 2 pp /\ has_relin_key pp crs rs 1 1 "alice"%string s s /\ (forall t, In t [t0; t1] -> call_ready pp rs t) /\ pools_ok pp rs h /\
  (forall i, (i < 2)%nat -> co (phase pp (fun _ => s) (cv (tc0 t0)) 0) i mod 257 = 0 /\ co (phase pp (fun _ => s) (cv (tc1 t0)) 0) i mod 257 = 0) /\
  mq (Qi pp 0) = 257 /\ returned pp crs pscale rs sch [t0; t1] h 0 = Some (Ok c) /\ own_product pp crs pscale rs t0 = Ok c' /\
  co (phase pp (fun _ => s) (cv c) 0) 0 mod 257 = 100 /\ co (phase pp (fun _ => s) (cv c') 0) 0 mod 257 = 0.
Proof.
  destruct y_run' as (c & E1 & R1). destruct y_own' as (c' & E3 & R2).
  exists y_pp, y_crs, (f_of_int 200), y_rs, y_s, (y_call 0), (y_call 10), y_pools, [0; 1; 0; 0]%nat, c, c'. split; [exact y_wf|]. split; [exact y_key|].
  destruct (y_ready 0) as (A & B & C). destruct (y_ready 10) as (A' & _). split; [intros t [<-|[<-|[]]]; assumption|]. split; [exact y_pools_ok|].
  split; [rewrite B, C; intros i Hi; destruct i as [|[|i]]; [split; vm_compute; reflexivity|split; vm_compute; reflexivity|lia]|]. split; [reflexivity|].
  split; [exact E1|]. split; [exact E3|]. split; [exact R1|exact R2].
Qed.
Print Assumptions C32_interleaved_refuted.

(** hypotheses of the positive theorems: two calls, one of alice alone and one of bob alone, at different levels; and calls that share alice (above) *)
Definition ex_cA (l : string) n : ckct 8 := CK (PropsCkksEx.ex_ct n [l]) sc1.
Example C32_nonvacuous : exists (t0 t1 : thread 8) (rs : rlkset 8), wfp 8 ex_pp /\ (forall t, In t [t0; t1] -> call_ready ex_pp rs t) /\ disjoint_calls [t0; t1] /\
  pools_ok ex_pp rs (wh0 (fresh ex_pp rs), wh1 (fresh ex_pp rs)) /\ tprog t0 <> tprog t1 /\ call_parties t0 = ["alice"; "alice"]%string /\ call_parties t1 = ["bob"; "bob"]%string.
Proof.
  assert (ND : forall l, In l ["alice"; "bob"]%string -> NoDup (id0 :: [l])) by (intros l H; cbn in H; destruct H as [<-|[<-|[]]]; repeat constructor; cbn; intuition discriminate).
  assert (G : forall l n, In l ["alice"; "bob"]%string -> (0 < n <= 3)%nat -> good ex_pp (ex_cA l n)).
  { intros l n Hl Hn. exists (n - 1)%nat. change (length (Qm ex_pp)) with 3%nat. split; [lia|]. exact (wfct_shape ex_pp _ _ (PropsCkksEx.ex_ct_wf n [l] Hn (ND l Hl))). }
  set (rs := map (fun id => (id, ex_rlk id)) ["bob"; "alice"]%string).
  assert (IA : In "alice"%string ["alice"; "bob"]%string) by (left; reflexivity). assert (IB : In "bob"%string ["alice"; "bob"]%string) by (right; left; reflexivity).
  set (T := fun l n m same => match begin ex_ord (NewKeySwitcher ex_pp) (ex_cA l n) (ex_cA l m) same with Ok t => t | Panic => Th (CK nil f_zero) (CK nil f_zero) true ex_ord (NewKeySwitcher ex_pp) nil nil nil None end).
  assert (B0 : begin ex_ord (NewKeySwitcher ex_pp) (ex_cA "alice" 3) (ex_cA "alice" 2) false = Ok (T "alice"%string 3%nat 2%nat false)) by reflexivity.
  assert (B1 : begin ex_ord (NewKeySwitcher ex_pp) (ex_cA "bob" 2) (ex_cA "bob" 2) true = Ok (T "bob"%string 2%nat 2%nat true)) by reflexivity.
  exists (T "alice"%string 3%nat 2%nat false), (T "bob"%string 2%nat 2%nat true), rs. split; [exact ex_wf|].
  assert (P0 : call_parties (T "alice"%string 3%nat 2%nat false) = ["alice"; "alice"]%string) by reflexivity. assert (P1 : call_parties (T "bob"%string 2%nat 2%nat true) = ["bob"; "bob"]%string) by reflexivity.
  assert (K : forall id, In id ["alice"; "bob"]%string -> mget seq_dec rs id <> None) by (intros id H; cbn in H; destruct H as [<-|[<-|[]]]; discriminate).
  split; [|split; [|split; [|split; [discriminate|split; assumption]]]].
  - intros t [<-|[<-|[]]].
    + exists ex_ord, (NewKeySwitcher ex_pp), (ex_cA "alice" 3), (ex_cA "alice" 2), false. split; [exact B0|]. split; [exact ex_ord_ok|]. split; [apply sh_new|].
      split; [split; [apply G; [exact IA|lia]|split; [apply G; [exact IA|lia]|discriminate]]|]. rewrite P0. intros id Hid. apply K. cbn in Hid |- *. tauto.
    + exists ex_ord, (NewKeySwitcher ex_pp), (ex_cA "bob" 2), (ex_cA "bob" 2), true. split; [exact B1|]. split; [exact ex_ord_ok|]. split; [apply sh_new|].
      split; [split; [apply G; [exact IB|lia]|split; [apply G; [exact IB|lia]|reflexivity]]|]. rewrite P1. intros id Hid. apply K. cbn in Hid |- *. tauto.
  - intros i j ti tj id NE Hi Hj Hid Hid'.
    destruct i as [|[|i]]; [| |destruct i; discriminate]; destruct j as [|[|j]]; try (destruct j; discriminate); try congruence; cbn [nth_error] in Hi, Hj; injection Hi as <-; injection Hj as <-;
      rewrite ?P0, ?P1 in Hid, Hid'; cbn in Hid, Hid'; intuition congruence.
  - destruct (fresh_sized ex_pp rs) as (_ & _ & A & B & C). split; [exact A|]. split; assumption.
Qed.
