(** A concrete parameter set used to show that the hypotheses of the theorems can be met:
    N = 8, Q = 97*193*257, P = 113*241, gamma = 1, so alpha = 2, Beta = 2 and the last block is cut short. *)
From Verif Require Import Base NumTheory Negacyclic Ntt Word BasisExt BasisExtProofs DecompProofs Rows RlweModel SchemeSpec ExtProd ExtProps KeyGenModel Galois KeyGenProofs.
From Coq Require Import Znumtheory.
Open Scope Z_scope.

Definition ex_pp : rparams := RP [Mod 97 8; Mod 193 3; Mod 257 2] [Mod 113 35; Mod 241 44] 1.

Lemma ex_okm m : is_prime (mq m) = true -> 2 < mq m < 2 ^ 61 -> (mpsi m ^ 8 + 1) mod mq m = 0 -> okmod (N := 8) m.
Proof.
  intros A B C. apply is_prime_ok in A. split; [|split; assumption].
  split; [assumption|]. split; [lia|]. split; [exists 3%nat; reflexivity|].
  apply Z.mod_divide in C; [|lia]. destruct C as [z Hz]. exists z. change (Z.of_nat 8) with 8. lia.
Qed.
Lemma ex_wf : wfp 8 ex_pp.
Proof.
  assert (F : Forall (okmod (N := 8)) (Qm ex_pp ++ Pm ex_pp)).
  { cbn. repeat (constructor; [apply ex_okm; [vm_compute; reflexivity|cbn [mq]; lia|vm_compute; reflexivity]|]). constructor. }
  assert (OB : okbase (Qs ex_pp ++ Ps ex_pp)).
  { split.
    - cbn [Qs Ps ex_pp Qm Pm map mq app]. repeat (constructor; [cbn; intuition discriminate|]). constructor.
    - unfold Qs, Ps. rewrite <- map_app. apply Forall_map. apply (Forall_impl _ (P := okmod (N := 8))); [|exact F]. intros m H. apply H. }
  assert (A : alpha ex_pp = 2%nat) by reflexivity.
  constructor; trivial; rewrite ?A; cbn [ex_pp Qm Pm gam length]; lia.
Qed.

(** sampled rows: the residues of a small polynomial *)
Definition rows_of (pp : rparams) {N} (e : R N) : list (R N) := tab (length (Qm pp)) (fun j => redm (mq (Qi pp j)) e).
Lemma rows_of_sample pp N B (e : R N) : wfp N pp -> bnd e B -> is_sample pp B e (rows_of pp e).
Proof.
  intros WF H. split; [assumption|]. intros j Hj. pose proof (wf_Qpos _ _ WF). unfold maxLevel in Hj.
  assert (V : (j < length (Qm pp))%nat) by lia. destruct (okmod_md pp WF j (MQ j) V ltac:(cbn; lia)) as [_ K]. cbn [md] in K. apply okq_lt in K.
  unfold rows_of, row. rewrite nth_tab by assumption. split; [|apply redm_eqm].
  intros x Hx. unfold redm. rewrite co_mkR by assumption. pose proof (Z.mod_pos_bound (co e x) (mq (Qi pp j)) ltac:(lia)). lia.
Qed.
Definition ex_poly (l : list Z) : R 8 := mkR (fun i => nth i l 0).
Lemma bnd_poly l B : 0 <= B -> forallb (fun z => Z.abs z <=? B) l = true -> bnd (ex_poly l) B.
Proof.
  intros HB H i Hi. unfold ex_poly. rewrite co_mkR by assumption. destruct (Nat.lt_ge_cases i (length l)) as [L|L].
  - rewrite forallb_forall in H. apply Z.leb_le. apply H. apply nth_In. assumption.
  - rewrite nth_overflow by assumption. cbn. assumption.
Qed.
Definition ex_s : R 8 := ex_poly [1; 0; -1; 1; 0; 0; 1; -1].
Definition ex_e (k : nat) : R 8 := ex_poly [Z.of_nat (k mod 3); -2; 3; 0; 1; -1; 2; 0].
Lemma ex_small : small_ok ex_pp 3.
Proof. split; [cbn; lia|]. intros k Hk. cbn in Hk. do 2 (destruct k as [|k]; [vm_compute; discriminate|]). lia. Qed.
Lemma ex_s_sample : is_sample ex_pp 3 ex_s (rows_of ex_pp ex_s).
Proof. apply rows_of_sample; [apply ex_wf|]. apply bnd_poly; [lia|reflexivity]. Qed.
Lemma ex_e_sample k : is_sample ex_pp 3 (ex_e k) (rows_of ex_pp (ex_e k)).
Proof.
  apply rows_of_sample; [apply ex_wf|]. apply bnd_poly; [lia|].
  pose proof (Nat.mod_upper_bound k 3 ltac:(lia)). destruct (k mod 3)%nat as [|[|[|n]]]; try reflexivity. lia.
Qed.
Definition ex_sk (id : string) : secretKey 8 := genSecretKeyFromSampler ex_pp id (rows_of ex_pp ex_s).
Lemma ex_sk_val id : mval ex_pp (maxLevel ex_pp) (sk_val (ex_sk id)) (fun _ => ex_s).
Proof. apply (genSecretKey_ok ex_pp ex_wf 3); [apply ex_small|apply ex_s_sample]. Qed.
Definition ex_u (i : Z) (k : nat) : polyQP 8 :=
  QP (tab 3 (fun j => mkR (fun x => Z.of_nat (7 * x + 5 * k + 3 * j) + i + 10))) (tab 2 (fun j => mkR (fun x => Z.of_nat (9 * x + 4 * k + 2 * j) + i + 10))).
Definition ex_crs : crsT 8 := NewCRS ex_pp 3 ex_u.
Lemma ex_u_words i k : -4 <= i <= 2 -> (k < 2)%nat -> wordsQP ex_pp (ex_u i k).
Proof.
  intros I K [j|j] V x Hx; cbn in V; cbn [fqp ex_u qpQ qpP]; unfold row;
    rewrite nth_tab by lia; rewrite co_mkR by assumption; unfold W; lia.
Qed.
Lemma ex_crs_entry i : -4 <= i <= 2 -> crs_ok ex_pp (crs_entry ex_pp (ex_u i)).
Proof.
  intros Hi. apply (crs_entry_ok ex_pp ex_wf). intros k Hk. assert (B : beta ex_pp (maxLevel ex_pp) = 2%nat) by (vm_compute; reflexivity).
  rewrite B in Hk. apply ex_u_words; assumption.
Qed.
