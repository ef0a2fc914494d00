(** C05 - C11 (one coefficient): property theorems for basis_extension.go and the digit counts. *)
From Verif Require Import Base BasisSpec NumTheory Negacyclic Ntt Word FloatModel FloatProofs BasisExt BasisExtProofs DecompProofs.
From Coq Require Import Znumtheory.
Open Scope Z_scope.

Lemma product_prodl l : product l = prodl l.
Proof. induction l as [|a l IH]; [reflexivity|]. cbn [prodl]. rewrite <- IH. reflexivity. Qed.
Lemma moduli_okbase l : moduli l <-> okbase l.
Proof.
  unfold moduli, okbase, okq. rewrite Forall_forall. tauto.
Qed.
Lemma nth_in_okq Q i : okbase Q -> (i < length Q)%nat -> okq (nth i Q 0).
Proof. intros [_ F] H. apply (proj1 (Forall_forall _ _) F). apply nth_In. assumption. Qed.

(** ** C05 *)
Theorem C05_beta_is_the_ceiling : forall levelQ alpha : nat,
  (0 < alpha)%nat -> Z.of_nat levelQ + 1 < 2 ^ 52 -> Z.of_nat alpha < 2 ^ 52 ->
  (alpha * (beta_of levelQ alpha - 1) < levelQ + 1 <= alpha * beta_of levelQ alpha)%nat.
Proof. intros. apply beta_exact; assumption. Qed.
Print Assumptions C05_beta_is_the_ceiling.

Theorem C05_blocks_partition_the_moduli : forall levelQ alpha j : nat,
  (0 < alpha)%nat -> Z.of_nat levelQ + 1 < 2 ^ 52 -> Z.of_nat alpha < 2 ^ 52 -> (j <= levelQ)%nat ->
  exists! i, (i < beta_of levelQ alpha)%nat /\ (i * alpha <= j < Nat.min ((i + 1) * alpha) (levelQ + 1))%nat.
Proof.
  intros levelQ alpha j A B C D. destruct (blocks_partition levelQ alpha j A B C D) as (i & [I1 I2] & U).
  unfold blk_len in *. exists i. split; [split; [assumption|lia]|].
  intros i' [J1 J2]. apply U. split; [assumption|lia].
Qed.
Print Assumptions C05_blocks_partition_the_moduli.
Example C05_nonvacuous : beta_of 6 3 = 3%nat /\ beta_of 5 3 = 2%nat. Proof. vm_compute. split; reflexivity. Qed.

(** ** C06 *)
Theorem C06_mred : forall x y q, 0 <= x -> 0 <= y -> 0 < q < 2 ^ 63 -> Z.odd q = true -> x * y < q * 2 ^ 64 ->
  0 <= mred x y q (mred_params q) < q /\ (2 ^ 64 * mred x y q (mred_params q)) mod q = (x * y) mod q.
Proof.
  intros x y q A B C D E. destruct (mred_ok x y q A B C D E) as [F G]. split; [assumption|]. apply eqz_iff; [lia|exact G].
Qed.
Print Assumptions C06_mred.
Theorem C06_mform : forall a q, 0 <= a < 2 ^ 64 -> 1 < q < 2 ^ 63 -> mform a q (bred_params q) = (a * 2 ^ 64) mod q.
Proof.
  intros a q A B. destruct (mform_ok a q A B) as [F G]. apply eqz_iff in G; [|lia]. rewrite Z.mod_small in G by lia. exact G.
Qed.
Print Assumptions C06_mform.
Theorem C06_bred : forall x y q, 0 <= x < 2 ^ 64 -> 0 <= y < 2 ^ 64 -> 1 < q < 2 ^ 63 -> bred x y q (bred_params q) = (x * y) mod q.
Proof. exact bred_ok. Qed.
Print Assumptions C06_bred.
Theorem C06_cred : forall a q, 0 <= a < 2 * q -> cred a q = a mod q.
Proof.
  intros a q A. destruct (cred_ok a q A) as [F G]. apply eqz_iff in G; [|lia]. rewrite Z.mod_small in G by lia. exact G.
Qed.
Print Assumptions C06_cred.
Theorem C06_modexp : forall x e q, 0 <= x < 2 ^ 64 -> 0 < e -> 1 < q < 2 ^ 63 -> mod_exp x e q = x ^ e mod q.
Proof. exact mod_exp_ok. Qed.
Print Assumptions C06_modexp.
(** the 128-bit accumulation of multSum: up to 32 products, no lost carry, one lazy Montgomery reduction *)
Theorem C06_multsum : forall y qo vt v p, prime p -> 2 < p < 2 ^ 61 -> (length y <= 32)%nat ->
  Forall (fun ym => 0 <= fst ym < 2 ^ 61 /\ 0 <= snd ym < p) (combine y qo) ->
  (v < length vt)%nat -> 0 <= nth v vt 0 < p ->
  exists r, multSum y (Z.of_nat v) p vt qo = Ok r /\ 0 <= r < 6 * p /\
    (2 ^ 64 * r) mod p = (fold_right (fun ym s => fst ym * snd ym + s) 0 (combine y qo) + 2 ^ 64 * nth v vt 0) mod p.
Proof.
  intros y qo vt v p PP PB L F HL HV.
  destruct (multSum_ok y qo vt (Z.of_nat v) p (conj PP PB) L F ltac:(lia)) as (r & E & B & C); try (rewrite Nat2Z.id; assumption).
  rewrite Nat2Z.id in C. exists r. split; [exact E|]. split; [exact B|].
  apply eqz_iff; [lia|]. assert (D : dot (combine y qo) = fold_right (fun ym s => fst ym * snd ym + s) 0 (combine y qo)).
  { clear. induction (combine y qo) as [|[a b] l IH]; cbn; [reflexivity|]. rewrite IH. reflexivity. }
  rewrite <- D. exact C.
Qed.
Print Assumptions C06_multsum.
Example C06_nonvacuous : mred (2 ^ 59 + 7) (2 ^ 60 + 3) 1152921504606584833 (mred_params 1152921504606584833)
  = ((2 ^ 59 + 7) * (2 ^ 60 + 3) * powm 1152921504606584833 (2 ^ 64) (1152921504606584833 - 2)) mod 1152921504606584833.
Proof. vm_compute. reflexivity. Qed.

(** ** C07 *)
Theorem C07_qoverqiinvqi : forall Q P i, moduli Q -> (i < length Q)%nat ->
  let q := nth i Q 0 in let t := nth i (qoverqiinvqi (basisextenderparameters Q P)) 0 in
  0 <= t < q /\ (t * (product Q / q)) mod q = 2 ^ 64 mod q.
Proof.
  intros Q P i M H q t. apply moduli_okbase in M. destruct (qoverqiinvqi_ok Q P i M H) as (A & c & B & C).
  fold q t in A, B, C. split; [exact A|]. apply eqz_iff; [lia|]. rewrite product_prodl. unfold q at 2.
  rewrite (others_quot i Q (proj2 M) H). rewrite B. rewrite <- (Z.mul_1_l (2 ^ 64)). rewrite <- C. apply eqz_eq. unfold W. ring.
Qed.
Print Assumptions C07_qoverqiinvqi.
Theorem C07_qoverqimodp : forall Q P i j, moduli Q -> moduli P -> (i < length Q)%nat -> (j < length P)%nat ->
  let p := nth j P 0 in
  nth i (nth j (qoverqimodp (basisextenderparameters Q P)) nil) 0 = (2 ^ 64 * (product Q / nth i Q 0)) mod p.
Proof.
  intros Q P i j M MP Hi Hj p. apply moduli_okbase in M, MP. destruct (qoverqimodp_ok Q P i j (proj2 M) (proj2 MP) Hi Hj) as (A & B).
  fold p in A, B. rewrite product_prodl, (others_quot i Q (proj2 M) Hi). apply eqz_iff in B; [|lia]. rewrite Z.mod_small in B by lia. exact B.
Qed.
Print Assumptions C07_qoverqimodp.
Theorem C07_vtimesqmodp : forall Q P j v, moduli Q -> moduli P -> (j < length P)%nat -> (v <= length Q)%nat ->
  let p := nth j P 0 in
  nth v (nth j (vtimesqmodp (basisextenderparameters Q P)) nil) 0 = (- (Z.of_nat v * product Q)) mod p.
Proof.
  intros Q P j v M MP Hj Hv p. apply moduli_okbase in M, MP. destruct (vtimesqmodp_ok Q P j v (proj2 M) (proj2 MP) Hj Hv) as (A & B).
  fold p in A, B. rewrite product_prodl. apply eqz_iff in B; [|lia]. rewrite Z.mod_small in B by lia. exact B.
Qed.
Print Assumptions C07_vtimesqmodp.
Theorem C07_moddown_constant : forall Q P j i, moduli (Q ++ P) -> (j < length P)%nat -> (i < length Q)%nat ->
  let q := nth i Q 0 in let t := nth i (nth j (genModDownParams Q P) nil) 0 in
  0 <= t < q /\ (t * product (firstn (S j) P)) mod q = 2 ^ 64 mod q.
Proof.
  intros Q P j i M Hj Hi q t. apply moduli_okbase in M. destruct (genModDownParams_ok Q P j i M Hj Hi) as (A & c & B & C).
  fold q t in A, B, C. split; [exact A|]. apply eqz_iff; [lia|]. rewrite product_prodl.
  rewrite B. rewrite <- (Z.mul_1_l (2 ^ 64)). rewrite <- C. apply eqz_eq. unfold W. ring.
Qed.
Print Assumptions C07_moddown_constant.

(** ** C08 *)
Lemma crt_eq Q X x : okbase Q -> (forall i, (i < length Q)%nat -> eqz (nth i Q 0) X x) -> (prodl Q | X - x).
Proof.
  intros [ND F] H. apply divide_prodl; [assumption|..].
  - intros q Hq. apply (proj1 (Forall_forall _ _) F). assumption.
  - intros q Hq. apply (In_nth _ _ 0) in Hq. destruct Hq as (i & Hi & <-). apply H. assumption.
Qed.
Lemma modup_int_x Q x rows : okbase Q -> (length Q <= 32)%nat -> residues_of x Q rows ->
  (prodl Q | modup_int Q rows - x) /\ almost_reduced (modup_int Q rows) (prodl Q).
Proof.
  intros M L [RL R].
  assert (F : Forall (fun r => 0 <= r < W) rows).
  { apply Forall_forall. intros r Hr. apply (In_nth _ _ 0) in Hr. destruct Hr as (i & Hi & <-). apply R. lia. }
  destruct (modup_int_ok Q rows M L RL F) as [A B]. split; [|exact B].
  apply crt_eq; [assumption|]. intros i Hi. rewrite (A i Hi). apply R. assumption.
Qed.
Lemma residues_firstn x Q rows n : residues_of x Q rows -> residues_of x (firstn n Q) (firstn n rows).
Proof.
  intros [L R]. split; [rewrite !firstn_length; lia|]. intros i Hi. rewrite firstn_length in Hi. rewrite !nth_firstn by lia. apply R. lia.
Qed.
Lemma residues_words x Q rows : residues_of x Q rows -> Forall (fun r => 0 <= r < W) rows.
Proof.
  intros [L R]. apply Forall_forall. intros r Hr. apply (In_nth _ _ 0) in Hr. destruct Hr as (i & Hi & <-). apply R. lia.
Qed.

Theorem C08_modup_one_integer : forall Q P levelQ levelP x rows,
  moduli Q -> moduli P -> (levelQ < length Q)%nat -> (levelP < length P)%nat -> (levelQ < 32)%nat ->
  residues_of x (firstn (S levelQ) Q) rows ->
  exists out X, ModUp Q P levelQ levelP rows = Ok out /\
    (product (firstn (S levelQ) Q) | X - x) /\ almost_reduced X (product (firstn (S levelQ) Q)) /\
    length out = S levelP /\ forall j, (j <= levelP)%nat -> 0 <= nth j out 0 < 6 * nth j P 0 /\ (nth j P 0 | nth j out 0 - X).
Proof.
  intros Q P levelQ levelP x rows MQ MP HQ HP L R. apply moduli_okbase in MQ, MP.
  assert (LR : length rows = S levelQ) by (rewrite (proj1 R), firstn_length; lia).
  destruct (ModUp_ok Q P levelQ levelP rows MQ (proj2 MP) HQ HP ltac:(lia) ltac:(lia) (residues_words _ _ _ R)) as (out & E & LO & B).
  exists out, (modup_int (firstn (S levelQ) Q) (firstn (S levelQ) rows)). split; [exact E|].
  rewrite (firstn_all2 rows) by lia. rewrite product_prodl.
  destruct (modup_int_x (firstn (S levelQ) Q) x rows (okbase_firstn _ _ MQ) ltac:(rewrite firstn_length; lia) R) as [C D].
  split; [exact C|]. split; [exact D|]. split; [exact LO|].
  rewrite (firstn_all2 rows) in B by lia. exact B.
Qed.
Print Assumptions C08_modup_one_integer.

Fixpoint nodupb (l : list Z) : bool := match l with nil => true | x :: t => negb (existsb (Z.eqb x) t) && nodupb t end.
Lemma nodupb_ok l : nodupb l = true -> NoDup l.
Proof.
  induction l as [|x l IH]; intros H; [constructor|]. cbn [nodupb] in H. apply andb_true_iff in H. destruct H as [A B].
  constructor; [|apply IH; assumption]. intros I. apply negb_true_iff in A.
  assert (existsb (Z.eqb x) l = true); [|congruence]. apply existsb_exists. exists x. split; [assumption|apply Z.eqb_refl].
Qed.
Lemma moduli_dec l : nodupb l = true ->
  forallb (fun q => is_prime q && (2 <? q) && (q <? 2 ^ 61)) l = true -> moduli l.
Proof.
  intros A B. split; [apply nodupb_ok; assumption|].
  intros q Hq. rewrite forallb_forall in B. specialize (B q Hq). rewrite !andb_true_iff, !Z.ltb_lt in B.
  destruct B as [[B1 B2] B3]. split; [apply is_prime_ok; assumption|lia].
Qed.
Definition exQ : list Z := [38273; 57089; 35281; 43201].
Definition exP : list Z := [12289; 40961].
Lemma exQP_moduli : moduli (exQ ++ exP).
Proof. apply moduli_dec; vm_compute; reflexivity. Qed.
Definition residues (x : Z) (Q : list Z) : list Z := map (fun q => x mod q) Q.
Lemma residues_ok x Q : moduli Q -> residues_of x Q (residues x Q).
Proof.
  intros [_ F]. split; [apply map_length|]. intros i Hi. unfold residues. rewrite (nth_map' _ _ _ 0) by assumption.
  destruct (F (nth i Q 0) (nth_In _ _ Hi)) as [_ B].
  pose proof (Z.mod_pos_bound x (nth i Q 0) ltac:(lia)). split; [lia|]. apply eqz_mod.
Qed.

(** the reconstructed y_i without evaluating the tables *)
Lemma recon_val Q rows ys : okbase Q -> length rows = length Q -> Forall (fun r => 0 <= r < W) rows -> length ys = length Q ->
  (forall i, (i < length Q)%nat -> 0 <= nth i ys 0 < nth i Q 0 /\ eqz (nth i Q 0) (nth i ys 0 * prodl (others i Q)) (nth i rows 0)) ->
  recon_y rows Q (qoverqiinvqi (basisextenderparameters Q nil)) = ys.
Proof.
  intros M L F LY H. apply (nth_ext _ _ 0 0); [rewrite recon_len; lia|]. intros i Hi. rewrite recon_len in Hi.
  destruct (recon_nth rows Q nil i M L F ltac:(lia)) as [A B]. destruct (H i ltac:(lia)) as [C D].
  pose proof (nth_in_okq Q i M ltac:(lia)) as K.
  assert (E : eqz (nth i Q 0) (nth i (recon_y rows Q (qoverqiinvqi (basisextenderparameters Q nil))) 0) (nth i ys 0)).
  { apply (eqz_cancel _ (prodl (others i Q))).
    - apply prime_gcd; [apply K|]. apply others_coprime; [assumption|lia].
    - rewrite (Z.mul_comm (prodl _)), B, (Z.mul_comm (prodl _)), D. reflexivity. }
  apply eqz_iff in E; [|lia]. rewrite !Z.mod_small in E by lia. exact E.
Qed.

(** "ModUp" is not exact although its inner routine is called modUpExact: x = Q - 1 is converted to -1. *)
Lemma modup_int_minus1 : modup_int exQ (residues 3330271395906947856 exQ) = -1.
Proof.
  assert (MQ : moduli exQ) by (apply moduli_dec; vm_compute; reflexivity).
  pose proof (residues_ok 3330271395906947856 exQ MQ) as R. apply moduli_okbase in MQ.
  assert (E : recon_y (residues 3330271395906947856 exQ) exQ (qoverqiinvqi (basisextenderparameters exQ nil)) = [18920; 15220; 21469; 27240]).
  { apply recon_val; [exact MQ|apply R|apply (residues_words _ _ _ R)|reflexivity|].
    intros i Hi. change (length exQ) with 4%nat in Hi. unfold eqz.
    do 4 (destruct i as [|i]; [split; [cbn; lia|apply Z.mod_divide; [cbn; lia|vm_compute; reflexivity]]|]). lia. }
  unfold modup_int. cbv zeta. rewrite E. vm_compute. reflexivity.
Qed.
Theorem C08_exact_refuted : exists Q P levelQ levelP x out,
  moduli (Q ++ P) /\ (levelQ < length Q)%nat /\ (levelP < length P)%nat /\ 0 <= x < product (firstn (S levelQ) Q) /\
  ModUp Q P levelQ levelP (residues x (firstn (S levelQ) Q)) = Ok out /\
  ~ (nth 0 P 0 | nth 0 out 0 - x).
Proof.
  pose proof exQP_moduli as M. apply moduli_okbase in M. pose proof M as [ND FO]. apply Forall_app in FO. destruct FO as [FQ FP].
  assert (MQ : okbase exQ) by (split; [apply NoDup_app_remove_r in ND; assumption|assumption]).
  pose proof (residues_ok 3330271395906947856 exQ (proj2 (moduli_okbase _) MQ)) as R.
  destruct (ModUp_ok exQ exP 3 1 (residues 3330271395906947856 exQ) MQ FP ltac:(cbn; lia) ltac:(cbn; lia) ltac:(lia) ltac:(cbn; lia) (residues_words _ _ _ R)) as (out & E & L & B).
  exists exQ, exP, 3%nat, 1%nat, 3330271395906947856, out.
  split; [apply exQP_moduli|]. split; [cbn; lia|]. split; [cbn; lia|]. split; [vm_compute; split; congruence|]. split; [exact E|].
  destruct (B 0%nat ltac:(lia)) as [_ B0]. change (modup_int (firstn 4 exQ) (firstn 4 (residues 3330271395906947856 exQ))) with (modup_int exQ (residues 3330271395906947856 exQ)) in B0.
  rewrite modup_int_minus1 in B0. intros D. unfold eqz in B0.
  assert (X : (nth 0 exP 0 | 3330271395906947857)).
  { replace 3330271395906947857 with ((nth 0 out 0 - -1) - (nth 0 out 0 - 3330271395906947856)) by lia. apply Z.divide_sub_r; assumption. }
  apply Z.mod_divide in X; [|cbn; lia]. revert X. vm_compute. discriminate.
Qed.
Print Assumptions C08_exact_refuted.
Example C08_nonvacuous : moduli exQ /\ moduli exP /\ residues_of 123456789012345 (firstn 4 exQ) (residues 123456789012345 exQ) /\
  ModUp [17; 97] [113] 1 0 (residues 1234 [17; 97]) = Ok [1234 mod 113].
Proof.
  assert (M : moduli exQ) by (apply moduli_dec; vm_compute; reflexivity). split; [exact M|].
  split; [apply moduli_dec; vm_compute; reflexivity|]. split; [apply residues_ok; exact M|vm_compute; reflexivity].
Qed.

(** ** C09 *)
Lemma prodl_gcd P q : Forall okq P -> prime q -> ~ In q P -> Z.gcd (prodl P) q = 1.
Proof.
  intros F Pq NI. apply prime_gcd; [assumption|]. apply prime_divide_prodl; trivial.
  intros x Hx. apply (proj1 (Forall_forall _ _) F). assumption.
Qed.
Lemma NoDup_app_not_in {A} (l l' : list A) x : NoDup (l ++ l') -> In x l -> ~ In x l'.
Proof.
  induction l as [|a l IH]; intros N I J; [destruct I|]. cbn in N. inversion N; subst. destruct I as [->|I].
  - apply H1. apply in_or_app. right. assumption.
  - apply IH; assumption.
Qed.
Lemma floor_out q D o z x r : okq q -> Z.gcd D q = 1 -> 0 <= o < q -> (D | x - r) -> 0 < D -> eqz q (D * o) (z - r) -> eqz q z x ->
  o = ((x - r) / D) mod q.
Proof.
  intros K G B DV DP E Zx. destruct DV as [y Y]. rewrite Y, Z.div_mul by lia.
  assert (C : eqz q o y).
  { apply (eqz_cancel q D); [assumption|]. rewrite E, Zx, Y. apply eqz_eq. ring. }
  pose proof (okq_lt q K). apply eqz_iff in C; [|lia]. rewrite Z.mod_small in C by lia. exact C.
Qed.

Theorem C09_moddown_floor : forall Q P levelQ levelP x rowsQ rowsP,
  moduli (Q ++ P) -> (levelQ < length Q)%nat -> (levelP < length P)%nat -> (levelP < 32)%nat ->
  residues_of x (firstn (S levelQ) Q) rowsQ -> (forall i, (i <= levelQ)%nat -> nth i rowsQ 0 < 2 * nth i Q 0) ->
  residues_of x (firstn (S levelP) P) rowsP ->
  let D := product (firstn (S levelP) P) in
  exists out r, ModDownQPtoQ Q P levelQ levelP rowsQ rowsP = Ok out /\
    (D | x - r) /\ almost_reduced r D /\ canonical ((x - r) / D) (firstn (S levelQ) Q) out.
Proof.
  intros Q P levelQ levelP x rowsQ rowsP M HQ HP L RQ BQ RP D. apply moduli_okbase in M. pose proof M as [ND FO].
  apply Forall_app in FO. destruct FO as [FQ FP].
  assert (LP : length rowsP = S levelP) by (rewrite (proj1 RP), firstn_length; lia).
  destruct (ModDownQPtoQ_ok Q P levelQ levelP rowsQ rowsP M HQ HP ltac:(lia) ltac:(lia) (residues_words _ _ _ RP)) as (out & E & LO & B).
  { intros i Hi. split; [|apply BQ; assumption]. destruct RQ as [A RQ]. rewrite firstn_length in RQ. apply (RQ i). lia. }
  rewrite (firstn_all2 rowsP) in B by lia. cbv zeta in B.
  set (r := modup_int (firstn (S levelP) P) rowsP) in *.
  assert (OKP : okbase P) by (split; [apply NoDup_app_remove_l in ND; assumption|assumption]).
  destruct (modup_int_x (firstn (S levelP) P) x rowsP (okbase_firstn _ _ OKP) ltac:(rewrite firstn_length; lia) RP) as [C A]. fold r in C, A.
  exists out, r. unfold D. rewrite product_prodl. split; [exact E|].
  assert (DV : (prodl (firstn (S levelP) P) | x - r)) by (replace (x - r) with (- (r - x)) by ring; apply Z.divide_opp_r; exact C).
  split; [exact DV|]. split; [exact A|]. split; [rewrite firstn_length; lia|].
  intros i Hi. rewrite firstn_length in Hi. rewrite nth_firstn by lia. destruct (B i ltac:(lia)) as [B1 B2].
  assert (K : okq (nth i Q 0)) by (apply (proj1 (Forall_forall _ _) FQ); apply nth_In; lia).
  apply (floor_out _ _ _ (nth i rowsQ 0)); trivial.
  - apply prodl_gcd; [|apply K|].
    + apply Forall_forall. intros p Hp. apply (proj1 (Forall_forall _ _) FP). apply firstn_incl in Hp. assumption.
    + intros I. apply firstn_incl in I. revert I. apply (NoDup_app_not_in Q P); [assumption|]. apply nth_In. lia.
  - apply prodl_pos. intros p Hp. apply firstn_incl in Hp. apply (proj1 (Forall_forall _ _) FP) in Hp. apply okq_lt in Hp. lia.
  - destruct RQ as [_ RQ]. rewrite firstn_length in RQ. specialize (RQ i ltac:(lia)). rewrite nth_firstn in RQ by lia. apply RQ.
Qed.
Print Assumptions C09_moddown_floor.
(** basis_extension.go:188 and 234 say "with a rounding"; 0.99.. is mapped to 0 *)
Theorem C09_rounding_refuted : exists Q P x out, moduli (Q ++ P) /\ 0 <= x /\
  ModDownQPtoQ Q P 0 0 (residues x Q) (residues x P) = Ok out /\
  2 * (x - product P * nth 0 out 0) > product P.
Proof.
  exists [97], [17], 16, [0]. split; [apply moduli_dec; vm_compute; reflexivity|]. split; [lia|]. split; [vm_compute; reflexivity|]. vm_compute. reflexivity.
Qed.
Print Assumptions C09_rounding_refuted.
Example C09_nonvacuous : let x := 12345678901234567890 in
  moduli (exQ ++ exP) /\ residues_of x (firstn 4 exQ) (residues x exQ) /\ residues_of x (firstn 2 exP) (residues x exP) /\
  (forall i, (i <= 3)%nat -> nth i (residues x exQ) 0 < 2 * nth i exQ 0) /\
  ModDownQPtoQ [17; 97] [113] 1 0 (residues 12345 [17; 97]) (residues 12345 [113]) = Ok (residues (12345 / 113) [17; 97]).
Proof.
  split; [apply exQP_moduli|]. split; [apply residues_ok; apply moduli_dec; vm_compute; reflexivity|].
  split; [apply residues_ok; apply moduli_dec; vm_compute; reflexivity|]. split; [|vm_compute; reflexivity].
  intros i Hi. do 4 (destruct i as [|i]; [vm_compute; reflexivity|]). lia.
Qed.

(** ** C10 *)
Theorem C10_moddownP_equal_levels : forall Q P level x rowsQ rowsP,
  moduli (Q ++ P) -> (level < length Q)%nat -> (level < length P)%nat -> (level < 32)%nat ->
  residues_of x (firstn (S level) Q) rowsQ -> residues_of x (firstn (S level) P) rowsP ->
  (forall i, (i <= level)%nat -> nth i rowsP 0 < 2 * nth i P 0) ->
  let D := product (firstn (S level) Q) in
  exists out r, ModDownQPtoP Q P level level rowsQ rowsP = Ok out /\
    (D | x - r) /\ almost_reduced r D /\ canonical ((x - r) / D) (firstn (S level) P) out.
Proof.
  intros Q P level x rowsQ rowsP M HQ HP L RQ RP BP D. apply moduli_okbase in M. pose proof M as [ND FO].
  apply Forall_app in FO. destruct FO as [FQ FP].
  assert (LP : length rowsQ = S level) by (rewrite (proj1 RQ), firstn_length; lia).
  destruct (ModDownQPtoP_ok Q P level level rowsQ rowsP M HQ HP HQ ltac:(lia) ltac:(lia) (residues_words _ _ _ RQ)) as (out & E & LO & B).
  { intros i Hi. split; [|apply BP; assumption]. destruct RP as [A RP]. rewrite firstn_length in RP. apply (RP i). lia. }
  rewrite (firstn_all2 rowsQ) in B by lia. cbv zeta in B.
  set (r := modup_int (firstn (S level) Q) rowsQ) in *.
  assert (OKQ : okbase Q) by (split; [apply NoDup_app_remove_r in ND; assumption|assumption]).
  destruct (modup_int_x (firstn (S level) Q) x rowsQ (okbase_firstn _ _ OKQ) ltac:(rewrite firstn_length; lia) RQ) as [C A]. fold r in C, A.
  exists out, r. unfold D. rewrite product_prodl. split; [exact E|].
  assert (DV : (prodl (firstn (S level) Q) | x - r)) by (replace (x - r) with (- (r - x)) by ring; apply Z.divide_opp_r; exact C).
  split; [exact DV|]. split; [exact A|]. split; [rewrite firstn_length; lia|].
  intros i Hi. rewrite firstn_length in Hi. rewrite nth_firstn by lia. destruct (B i ltac:(lia)) as [B1 B2].
  assert (K : okq (nth i P 0)) by (apply (proj1 (Forall_forall _ _) FP); apply nth_In; lia).
  apply (floor_out _ _ _ (nth i rowsP 0)); trivial.
  - apply prodl_gcd; [|apply K|].
    + apply Forall_forall. intros p Hp. apply (proj1 (Forall_forall _ _) FQ). apply firstn_incl in Hp. assumption.
    + intros I. apply firstn_incl in I. revert I. apply (NoDup_app_not_in P Q); [apply nodup_swap; assumption|]. apply nth_In. lia.
  - apply prodl_pos. intros p Hp. apply firstn_incl in Hp. apply (proj1 (Forall_forall _ _) FQ) in Hp. apply okq_lt in Hp. lia.
  - destruct RP as [_ RP]. rewrite firstn_length in RP. specialize (RP i ltac:(lia)). rewrite nth_firstn in RP by lia. apply RP.
Qed.
Print Assumptions C10_moddownP_equal_levels.
(** with different levels the constants of the wrong product are used: x = 5 * q0 * q1, divided by q0 only *)
Theorem C10_moddownP_refuted : exists Q P levelQ levelP x out, moduli (Q ++ P) /\ (levelQ < length Q)%nat /\ (levelP < length P)%nat /\
  ModDownQPtoP Q P levelQ levelP (residues x (firstn (S levelQ) Q)) (residues x (firstn (S levelP) P)) = Ok out /\
  x = 5 * product (firstn (S levelQ) Q) /\ nth 0 out 0 <> 5 mod nth 0 P 0.
Proof.
  exists [97; 113], [193], 1%nat, 0%nat, (5 * (97 * 113)), [179].
  split; [apply moduli_dec; vm_compute; reflexivity|]. split; [cbn; lia|]. split; [cbn; lia|]. split; [vm_compute; reflexivity|].
  split; [vm_compute; reflexivity|]. vm_compute. congruence.
Qed.
Print Assumptions C10_moddownP_refuted.
(** ... and with levelP >= len(Q) the lookup of the constants panics *)
Theorem C10_moddownP_panics : forall Q P levelQ levelP rowsQ rowsP, (length Q <= levelP)%nat -> (levelP < length P)%nat ->
  ModDownQPtoP Q P levelQ levelP rowsQ rowsP = Panic.
Proof.
  intros Q P levelQ levelP rowsQ rowsP H H'. unfold ModDownQPtoP. destruct (ModUp Q P levelQ levelP rowsQ); cbn; [|reflexivity].
  unfold idx. rewrite (proj2 (nth_error_None _ _)); [reflexivity|]. unfold genModDownParams. rewrite gen_mod_down_len. assumption.
Qed.
Print Assumptions C10_moddownP_panics.

(** ** C11, one coefficient *)
Theorem C11_digit : forall Q P gamma alpha levelQ i x rows,
  moduli (Q ++ P) -> (0 < alpha <= 32)%nat -> (0 < gamma)%nat -> (gamma * alpha <= length P)%nat -> ((gamma * alpha)%nat = length P \/ alpha = 1%nat) ->
  Z.of_nat (length Q) < 2 ^ 52 -> Z.of_nat (length P) < 2 ^ 52 ->
  (levelQ < length Q)%nat -> (i < beta_of levelQ alpha)%nat ->
  residues_of x (firstn (S levelQ) Q) rows -> (forall j, (j <= levelQ)%nat -> nth j rows 0 <= nth j Q 0) ->
  let block := firstn (Nat.min alpha (S levelQ - i * alpha)) (skipn (i * alpha) Q) in
  exists outQ outP D,
    DecomposeAndSplit (NewDecomposer Q P gamma) Q P levelQ (length P - 1) alpha i gamma rows = Ok (outQ, outP) /\
    residues_of D (firstn (S levelQ) Q) outQ /\ residues_of D P outP /\
    (product block | D - x) /\ - product block < 2 ^ 40 * D < (2 ^ 40 + 1) * product block.
Proof.
  intros Q P gamma alpha levelQ i x rows M HA HG HGL HGA LQ LP HQ Hi R B block. apply moduli_okbase in M.
  assert (LR : length rows = S levelQ) by (rewrite (proj1 R), firstn_length; lia).
  assert (I : (i * alpha <= levelQ)%nat).
  { destruct (beta_exact levelQ alpha ltac:(lia) ltac:(lia)) as [_ BB]; [nia|]. nia. }
  assert (B' : forall j, (j <= levelQ)%nat -> 0 <= nth j rows 0 <= nth j Q 0).
  { intros j Hj. split; [|apply B; assumption]. destruct R as [_ R]. rewrite firstn_length in R. apply (R j). lia. }
  destruct (DecomposeAndSplit_ok Q P gamma alpha levelQ i rows M HA HG HGL HGA LQ LP HQ I ltac:(lia) B') as (oQ & oP & E & L1 & L2 & R1 & R2).
  pose proof M as [ND FO]. apply Forall_app in FO. destruct FO as [FQ FP].
  assert (OKQ : okbase Q) by (split; [apply NoDup_app_remove_r in ND; assumption|assumption]).
  destruct (dig_int_ok Q alpha levelQ i rows OKQ HA HQ I ltac:(lia) B') as [D1 D2].
  exists oQ, oP, (dig_int Q alpha levelQ i rows). split; [exact E|].
  split; [|split; [|split]].
  - split; [rewrite firstn_length; lia|]. intros j Hj. rewrite firstn_length in Hj. rewrite nth_firstn by lia. apply R1. lia.
  - split; [exact L2|]. intros j Hj. apply R2. exact Hj.
  - rewrite product_prodl. change block with (blk alpha levelQ i Q). apply crt_eq.
    + apply okbase_firstn. apply okbase_skipn. assumption.
    + intros k Hk. rewrite blk_length in Hk by assumption. rewrite blk_nth by assumption. rewrite (D1 k Hk).
      destruct R as [_ R]. rewrite firstn_length in R. unfold blk_len in Hk. specialize (R (i * alpha + k)%nat ltac:(lia)).
      rewrite nth_firstn in R by lia. apply R.
  - rewrite product_prodl. exact D2.
Qed.
Print Assumptions C11_digit.
(** two digits: a full block and one cut short by the level *)
Example C11_nonvacuous : let x := 98765432109876 in
  moduli (exQ ++ exP) /\ (1 * 2 = length exP)%nat /\ (beta_of 2 2 = 2)%nat /\ residues_of x (firstn 3 exQ) (residues x (firstn 3 exQ)) /\
  (forall j, (j <= 2)%nat -> nth j (residues x (firstn 3 exQ)) 0 <= nth j exQ 0).
Proof.
  split; [apply exQP_moduli|]. split; [reflexivity|]. split; [vm_compute; reflexivity|].
  split; [apply residues_ok; apply moduli_dec; vm_compute; reflexivity|].
  intros i Hi. do 3 (destruct i as [|i]; [vm_compute; discriminate|]). lia.
Qed.

(** When gamma does not divide the number of special primes the tables are one short and every decomposition with a
    block of two or more moduli panics (NewParameters, params.go:16, accepts such a gamma). *)
Lemma rmapM_all {A B} (f : A -> res B) l o x : rmapM f l = Ok o -> In x l -> exists y, f x = Ok y.
Proof.
  revert o. induction l as [|a l IH]; intros o E I; [destruct I|]. cbn in E. destruct (f a) as [y|] eqn:F; [|discriminate].
  cbn in E. destruct (rmapM f l) as [ys|] eqn:G; [|discriminate]. destruct I as [->|I]; [eauto|]. eapply IH; [reflexivity|assumption].
Qed.
Theorem C11_gamma_must_divide : forall Q P gamma alpha levelQ i rows,
  (0 < gamma)%nat -> alpha = (length P / gamma)%nat -> (2 <= alpha)%nat -> (length P mod gamma <> 0)%nat ->
  (i * alpha + 1 <= levelQ)%nat ->
  DecomposeAndSplit (NewDecomposer Q P gamma) Q P levelQ (length P - 1) alpha i gamma rows = Panic.
Proof.
  intros Q P gamma alpha levelQ i rows G EA A2 ND B.
  pose proof (Nat.div_mod (length P) gamma ltac:(lia)) as DM. rewrite <- EA in DM. set (m := (length P mod gamma)%nat) in *.
  unfold DecomposeAndSplit. rewrite decomp_lvl_blk by lia.
  assert (BL : (2 <= blk_len alpha levelQ i)%nat) by (unfold blk_len; lia).
  destruct (Z.eqb_spec (Z.of_nat (blk_len alpha levelQ i) - 2) (-1)) as [E|_]; [lia|].
  match goal with |- ?t = Panic => destruct t as [o|] eqn:E; [exfalso|reflexivity] end.
  unfold idx at 1 in E. unfold NewDecomposer in E. rewrite nth_error_map in E.
  destruct (nth_error (seq 0 (length P - 1)) (gamma * alpha - 2)) as [lv|] eqn:E1; [|discriminate]. cbn [option_map rbind] in E.
  assert (LV : lv = (gamma * alpha - 2)%nat).
  { pose proof (nth_error_nth _ _ O E1) as X. rewrite seq_nth in X; [lia|]. apply nth_error_Some in E1 as Y || idtac.
    assert (Y : nth_error (seq 0 (length P - 1)) (gamma * alpha - 2) <> None) by congruence. apply nth_error_Some in Y. rewrite seq_length in Y. exact Y. }
  unfold idx at 1 in E. destruct (nth_error (decomposer_level Q (firstn (lv + 2) P) gamma) i) as [t2|] eqn:E2; [|discriminate]. cbn [rbind] in E.
  unfold idx at 1 in E. destruct (nth_error t2 _) as [params|] eqn:E3; [|discriminate]. cbn [rbind] in E.
  assert (LEN : exists Q', params = basisextenderparameters Q' (Q ++ firstn (lv + 2) P)).
  { clear E1. unfold decomposer_level in E2. rewrite nth_error_map in E2. destruct (nth_error (seq _ _) i) as [ii|]; cbn [option_map] in E2; [|discriminate]. injection E2 as <-.
    unfold decomposer_row in E3. rewrite nth_error_map in E3. destruct (nth_error (seq _ _) _) as [jj|]; cbn [option_map] in E3; [|discriminate]. eexists; symmetry; apply (f_equal (fun o => match o with Some x => x | None => params end)) in E3; exact E3. }
  destruct LEN as [Q' EP].
  destruct (reconstructRNS _ _ _) as [[y v]|]; [|discriminate]. cbn [rbind] in E.
  destruct (rmapM _ (seq 0 (S levelQ))) as [oQ|]; [|discriminate]. cbn [rbind] in E.
  destruct (rmapM _ (seq 0 (S (length P - 1)))) as [oP|] eqn:E4; [|discriminate].
  apply (rmapM_all _ _ _ (length P - 1)%nat) in E4; [|apply in_seq; lia]. destruct E4 as [z Ez].
  unfold idx at 1 in Ez. rewrite (proj2 (nth_error_None _ _)) in Ez; [discriminate|].
  rewrite EP. cbn [vtimesqmodp basisextenderparameters]. rewrite map_length, app_length, firstn_length. nia.
Qed.
Print Assumptions C11_gamma_must_divide.
