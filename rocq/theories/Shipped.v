(** Generated by tools/gen_params.py: the parameter sets of the repository, read from its sources; every modulus with a primality certificate and a 2N-th root of unity. *)
From Verif Require Import Base NumTheory Pock Negacyclic Ntt Word BasisExt BasisExtProofs Rows RlweModel BfvModel BfvMulModel.
From Coq Require Import Znumtheory.
Open Scope Z_scope.

Definition N15 : nat := 2 ^ 15.
Definition N14 : nat := 2 ^ 14.
Lemma N15_pow : N15 = (2 ^ 15)%nat. Proof. reflexivity. Qed.
Lemma N14_pow : N14 = (2 ^ 14)%nat. Proof. reflexivity. Qed.
Lemma N15_Z : Z.of_nat N15 = 32768. Proof. unfold N15. rewrite Nat2Z.inj_pow. reflexivity. Qed.
Lemma N14_Z : Z.of_nat N14 = 16384. Proof. unfold N14. rewrite Nat2Z.inj_pow. reflexivity. Qed.
Definition mod_dec (n : Z) (m : modulus) : bool := (2 <? mq m) && (mq m <? 2 ^ 61) && (powm (mq m) (mpsi m) n =? mq m - 1).
Lemma mod_dec_ok N n m : (exists L, N = 2 ^ L)%nat -> Z.of_nat N = n -> prime (mq m) -> mod_dec n m = true -> okmod (N := N) m.
Proof.
  intros HL HN P H. unfold mod_dec in H. apply andb_prop in H. destruct H as [H H3]. apply andb_prop in H. destruct H as [H1 H2]. apply Z.ltb_lt in H1, H2. apply Z.eqb_eq in H3.
  split; [|split; [exact P|lia]]. split; [exact P|]. split; [exact H1|]. split; [exact HL|]. rewrite HN. rewrite powm_ok in H3 by lia. apply eqz_iff; [lia|]. rewrite H3.
  replace (-1) with (mq m - 1 + (-1) * mq m) by ring. rewrite Z.mod_add by lia. symmetry. apply Z.mod_small. lia.
Qed.
Lemma shipped_mod15 q x : prime q -> mod_dec 32768 (Mod q x) = true -> okmod (N := N15) (Mod q x).
Proof. intros P H. apply (mod_dec_ok N15 32768); [exists 15%nat; reflexivity|exact N15_Z|exact P|exact H]. Qed.
Lemma shipped_mod14 q x : prime q -> mod_dec 16384 (Mod q x) = true -> okmod (N := N14) (Mod q x).
Proof. intros P H. apply (mod_dec_ok N14 16384); [exists 14%nat; reflexivity|exact N14_Z|exact P|exact H]. Qed.
Global Opaque N15 N14.

Lemma pr_2 : prime 2. Proof. apply is_prime_ok. vm_compute. reflexivity. Qed.
Lemma pr_19 : prime 19. Proof. apply is_prime_ok. vm_compute. reflexivity. Qed.
Lemma pr_11 : prime 11. Proof. apply is_prime_ok. vm_compute. reflexivity. Qed.
Lemma pr_3 : prime 3. Proof. apply is_prime_ok. vm_compute. reflexivity. Qed.
Lemma pr_5 : prime 5. Proof. apply is_prime_ok. vm_compute. reflexivity. Qed.
Lemma pr_13 : prime 13. Proof. apply is_prime_ok. vm_compute. reflexivity. Qed.
Lemma pr_4391 : prime 4391. Proof. apply is_prime_ok. vm_compute. reflexivity. Qed.
Lemma pr_114167 : prime 114167.
Proof. apply (pocklington _ [Wit 2 1 5; Wit 13 1 2; Wit 4391 1 2]); [constructor; [exact pr_2|]; constructor; [exact pr_13|]; constructor; [exact pr_4391|]; constructor|vm_compute; reflexivity]. Qed.
Lemma pr_913337 : prime 913337.
Proof. apply (pocklington _ [Wit 2 3 3; Wit 114167 1 2]); [constructor; [exact pr_2|]; constructor; [exact pr_114167|]; constructor|vm_compute; reflexivity]. Qed.
Lemma pr_82200331 : prime 82200331.
Proof. apply (pocklington _ [Wit 2 1 2; Wit 3 2 2; Wit 5 1 2; Wit 913337 1 2]); [constructor; [exact pr_2|]; constructor; [exact pr_3|]; constructor; [exact pr_5|]; constructor; [exact pr_913337|]; constructor|vm_compute; reflexivity]. Qed.
Lemma pr_7233629129 : prime 7233629129.
Proof. apply (pocklington _ [Wit 2 3 3; Wit 11 1 2; Wit 82200331 1 2]); [constructor; [exact pr_2|]; constructor; [exact pr_11|]; constructor; [exact pr_82200331|]; constructor|vm_compute; reflexivity]. Qed.
Lemma pr_18014398506729473 : prime 18014398506729473.
Proof. apply (pocklington _ [Wit 2 17 3; Wit 19 1 2; Wit 7233629129 1 2]); [constructor; [exact pr_2|]; constructor; [exact pr_19|]; constructor; [exact pr_7233629129|]; constructor|vm_compute; reflexivity]. Qed.
Lemma pr_23 : prime 23. Proof. apply is_prime_ok. vm_compute. reflexivity. Qed.
Lemma pr_347 : prime 347. Proof. apply is_prime_ok. vm_compute. reflexivity. Qed.
Lemma pr_18014398499848193 : prime 18014398499848193.
Proof. apply (pocklington _ [Wit 2 16 3; Wit 13 1 2; Wit 23 1 2; Wit 347 1 2]); [constructor; [exact pr_2|]; constructor; [exact pr_13|]; constructor; [exact pr_23|]; constructor; [exact pr_347|]; constructor|vm_compute; reflexivity]. Qed.
Lemma pr_61 : prime 61. Proof. apply is_prime_ok. vm_compute. reflexivity. Qed.
Lemma pr_919 : prime 919. Proof. apply is_prime_ok. vm_compute. reflexivity. Qed.
Lemma pr_4506195193 : prime 4506195193.
Proof. apply (pocklington _ [Wit 2 3 5; Wit 3 1 5; Wit 19 1 2; Wit 919 1 2]); [constructor; [exact pr_2|]; constructor; [exact pr_3|]; constructor; [exact pr_19|]; constructor; [exact pr_919|]; constructor|vm_compute; reflexivity]. Qed.
Lemma pr_18014398498275329 : prime 18014398498275329.
Proof. apply (pocklington _ [Wit 2 16 3; Wit 61 1 2; Wit 4506195193 1 2]); [constructor; [exact pr_2|]; constructor; [exact pr_61|]; constructor; [exact pr_4506195193|]; constructor|vm_compute; reflexivity]. Qed.
Lemma pr_17 : prime 17. Proof. apply is_prime_ok. vm_compute. reflexivity. Qed.
Lemma pr_10337 : prime 10337.
Proof. apply (pocklington _ [Wit 2 5 3; Wit 17 1 2]); [constructor; [exact pr_2|]; constructor; [exact pr_17|]; constructor|vm_compute; reflexivity]. Qed.
Lemma pr_15270994819 : prime 15270994819.
Proof. apply (pocklington _ [Wit 2 1 2; Wit 3 2 2; Wit 10337 1 2]); [constructor; [exact pr_2|]; constructor; [exact pr_3|]; constructor; [exact pr_10337|]; constructor|vm_compute; reflexivity]. Qed.
Lemma pr_18014398496243713 : prime 18014398496243713.
Proof. apply (pocklington _ [Wit 2 17 5; Wit 3 2 3; Wit 15270994819 1 2]); [constructor; [exact pr_2|]; constructor; [exact pr_3|]; constructor; [exact pr_15270994819|]; constructor|vm_compute; reflexivity]. Qed.
Lemma pr_18014398492704769 : prime 18014398492704769.
Proof. apply (pocklington _ [Wit 2 24 19; Wit 3 2 2]); [constructor; [exact pr_2|]; constructor; [exact pr_3|]; constructor|vm_compute; reflexivity]. Qed.
Lemma pr_499 : prime 499. Proof. apply is_prime_ok. vm_compute. reflexivity. Qed.
Lemma pr_1347440719 : prime 1347440719.
Proof. apply (pocklington _ [Wit 2 1 3; Wit 3 1 2; Wit 13 2 2; Wit 499 1 2]); [constructor; [exact pr_2|]; constructor; [exact pr_3|]; constructor; [exact pr_13|]; constructor; [exact pr_499|]; constructor|vm_compute; reflexivity]. Qed.
Lemma pr_18014398491918337 : prime 18014398491918337.
Proof. apply (pocklington _ [Wit 2 18 5; Wit 3 1 3; Wit 17 1 2; Wit 1347440719 1 2]); [constructor; [exact pr_2|]; constructor; [exact pr_3|]; constructor; [exact pr_17|]; constructor; [exact pr_1347440719|]; constructor|vm_compute; reflexivity]. Qed.
Lemma pr_7 : prime 7. Proof. apply is_prime_ok. vm_compute. reflexivity. Qed.
Lemma pr_31 : prime 31. Proof. apply is_prime_ok. vm_compute. reflexivity. Qed.
Lemma pr_157109 : prime 157109.
Proof. apply (pocklington _ [Wit 2 2 2; Wit 7 1 2; Wit 31 1 2]); [constructor; [exact pr_2|]; constructor; [exact pr_7|]; constructor; [exact pr_31|]; constructor|vm_compute; reflexivity]. Qed.
Lemma pr_1131184801 : prime 1131184801.
Proof. apply (pocklington _ [Wit 2 5 7; Wit 3 2 3; Wit 5 2 3; Wit 157109 1 2]); [constructor; [exact pr_2|]; constructor; [exact pr_3|]; constructor; [exact pr_5|]; constructor; [exact pr_157109|]; constructor|vm_compute; reflexivity]. Qed.
Lemma pr_18014398489755649 : prime 18014398489755649.
Proof. apply (pocklington _ [Wit 2 16 13; Wit 3 5 2; Wit 1131184801 1 2]); [constructor; [exact pr_2|]; constructor; [exact pr_3|]; constructor; [exact pr_1131184801|]; constructor|vm_compute; reflexivity]. Qed.
Lemma pr_24967 : prime 24967.
Proof. apply (pocklington _ [Wit 2 1 3; Wit 3 2 2; Wit 19 1 2]); [constructor; [exact pr_2|]; constructor; [exact pr_3|]; constructor; [exact pr_19|]; constructor|vm_compute; reflexivity]. Qed.
Lemma pr_18014398485823489 : prime 18014398485823489.
Proof. apply (pocklington _ [Wit 2 16 11; Wit 3 1 2; Wit 7 1 3; Wit 24967 1 2]); [constructor; [exact pr_2|]; constructor; [exact pr_3|]; constructor; [exact pr_7|]; constructor; [exact pr_24967|]; constructor|vm_compute; reflexivity]. Qed.
Lemma pr_18014398484316161 : prime 18014398484316161.
Proof. apply (pocklington _ [Wit 2 23 3; Wit 5 1 2; Wit 19 1 2]); [constructor; [exact pr_2|]; constructor; [exact pr_5|]; constructor; [exact pr_19|]; constructor|vm_compute; reflexivity]. Qed.
Lemma pr_769 : prime 769. Proof. apply is_prime_ok. vm_compute. reflexivity. Qed.
Lemma pr_277 : prime 277. Proof. apply is_prime_ok. vm_compute. reflexivity. Qed.
Lemma pr_7757 : prime 7757.
Proof. apply (pocklington _ [Wit 2 2 2; Wit 7 1 2; Wit 277 1 2]); [constructor; [exact pr_2|]; constructor; [exact pr_7|]; constructor; [exact pr_277|]; constructor|vm_compute; reflexivity]. Qed.
Lemma pr_62057 : prime 62057.
Proof. apply (pocklington _ [Wit 2 3 3; Wit 7757 1 2]); [constructor; [exact pr_2|]; constructor; [exact pr_7757|]; constructor|vm_compute; reflexivity]. Qed.
Lemma pr_1861711 : prime 1861711.
Proof. apply (pocklington _ [Wit 2 1 3; Wit 3 1 5; Wit 5 1 2; Wit 62057 1 2]); [constructor; [exact pr_2|]; constructor; [exact pr_3|]; constructor; [exact pr_5|]; constructor; [exact pr_62057|]; constructor|vm_compute; reflexivity]. Qed.
Lemma pr_357448513 : prime 357448513.
Proof. apply (pocklington _ [Wit 2 6 5; Wit 3 1 2; Wit 1861711 1 2]); [constructor; [exact pr_2|]; constructor; [exact pr_3|]; constructor; [exact pr_1861711|]; constructor|vm_compute; reflexivity]. Qed.
Lemma pr_18014398480187393 : prime 18014398480187393.
Proof. apply (pocklington _ [Wit 2 16 3; Wit 769 1 2; Wit 357448513 1 2]); [constructor; [exact pr_2|]; constructor; [exact pr_769|]; constructor; [exact pr_357448513|]; constructor|vm_compute; reflexivity]. Qed.
Lemma pr_53 : prime 53. Proof. apply is_prime_ok. vm_compute. reflexivity. Qed.
Lemma pr_857 : prime 857. Proof. apply is_prime_ok. vm_compute. reflexivity. Qed.
Lemma pr_38417597 : prime 38417597.
Proof. apply (pocklington _ [Wit 2 2 2; Wit 7 1 2; Wit 857 1 2]); [constructor; [exact pr_2|]; constructor; [exact pr_7|]; constructor; [exact pr_857|]; constructor|vm_compute; reflexivity]. Qed.
Lemma pr_691516747 : prime 691516747.
Proof. apply (pocklington _ [Wit 2 1 2; Wit 3 2 5; Wit 38417597 1 2]); [constructor; [exact pr_2|]; constructor; [exact pr_3|]; constructor; [exact pr_38417597|]; constructor|vm_compute; reflexivity]. Qed.
Lemma pr_36028797017456641 : prime 36028797017456641.
Proof. apply (pocklington _ [Wit 2 16 7; Wit 3 1 2; Wit 5 1 3; Wit 53 1 2; Wit 691516747 1 2]); [constructor; [exact pr_2|]; constructor; [exact pr_3|]; constructor; [exact pr_5|]; constructor; [exact pr_53|]; constructor; [exact pr_691516747|]; constructor|vm_compute; reflexivity]. Qed.
Lemma pr_28297 : prime 28297.
Proof. apply (pocklington _ [Wit 2 3 5; Wit 3 3 3]); [constructor; [exact pr_2|]; constructor; [exact pr_3|]; constructor|vm_compute; reflexivity]. Qed.
Lemma pr_549755813821 : prime 549755813821.
Proof. apply (pocklington _ [Wit 2 2 2; Wit 3 1 3; Wit 5 1 2; Wit 28297 1 2]); [constructor; [exact pr_2|]; constructor; [exact pr_3|]; constructor; [exact pr_5|]; constructor; [exact pr_28297|]; constructor|vm_compute; reflexivity]. Qed.
Lemma pr_36028797014573057 : prime 36028797014573057.
Proof. apply (pocklington _ [Wit 2 16 3; Wit 549755813821 1 2]); [constructor; [exact pr_2|]; constructor; [exact pr_549755813821|]; constructor|vm_compute; reflexivity]. Qed.
Lemma pr_163 : prime 163. Proof. apply is_prime_ok. vm_compute. reflexivity. Qed.
Lemma pr_36028797013327873 : prime 36028797013327873.
Proof. apply (pocklington _ [Wit 2 17 5; Wit 3 1 2; Wit 13 1 2; Wit 163 1 2]); [constructor; [exact pr_2|]; constructor; [exact pr_3|]; constructor; [exact pr_13|]; constructor; [exact pr_163|]; constructor|vm_compute; reflexivity]. Qed.
Lemma pr_59 : prime 59. Proof. apply is_prime_ok. vm_compute. reflexivity. Qed.
Lemma pr_1669 : prime 1669. Proof. apply is_prime_ok. vm_compute. reflexivity. Qed.
Lemma pr_36028797012606977 : prime 36028797012606977.
Proof. apply (pocklington _ [Wit 2 16 3; Wit 59 1 2; Wit 1669 1 2]); [constructor; [exact pr_2|]; constructor; [exact pr_59|]; constructor; [exact pr_1669|]; constructor|vm_compute; reflexivity]. Qed.
Lemma pr_389 : prime 389. Proof. apply is_prime_ok. vm_compute. reflexivity. Qed.
Lemma pr_18014398505943041 : prime 18014398505943041.
Proof. apply (pocklington _ [Wit 2 17 3; Wit 5 1 2; Wit 389 1 2]); [constructor; [exact pr_2|]; constructor; [exact pr_5|]; constructor; [exact pr_389|]; constructor|vm_compute; reflexivity]. Qed.
Lemma pr_20483 : prime 20483.
Proof. apply (pocklington _ [Wit 2 1 2; Wit 7 2 3; Wit 11 1 2]); [constructor; [exact pr_2|]; constructor; [exact pr_7|]; constructor; [exact pr_11|]; constructor|vm_compute; reflexivity]. Qed.
Lemma pr_18014398498799617 : prime 18014398498799617.
Proof. apply (pocklington _ [Wit 2 16 5; Wit 3 1 5; Wit 31 1 2; Wit 20483 1 2]); [constructor; [exact pr_2|]; constructor; [exact pr_3|]; constructor; [exact pr_31|]; constructor; [exact pr_20483|]; constructor|vm_compute; reflexivity]. Qed.
Lemma pr_2027 : prime 2027. Proof. apply is_prime_ok. vm_compute. reflexivity. Qed.
Lemma pr_16217 : prime 16217.
Proof. apply (pocklington _ [Wit 2 3 3; Wit 2027 1 2]); [constructor; [exact pr_2|]; constructor; [exact pr_2027|]; constructor|vm_compute; reflexivity]. Qed.
Lemma pr_18014398496440321 : prime 18014398496440321.
Proof. apply (pocklington _ [Wit 2 16 7; Wit 3 1 2; Wit 5 1 3; Wit 13 1 5; Wit 16217 1 2]); [constructor; [exact pr_2|]; constructor; [exact pr_3|]; constructor; [exact pr_5|]; constructor; [exact pr_13|]; constructor; [exact pr_16217|]; constructor|vm_compute; reflexivity]. Qed.
Lemma pr_881 : prime 881. Proof. apply is_prime_ok. vm_compute. reflexivity. Qed.
Lemma pr_26431 : prime 26431.
Proof. apply (pocklington _ [Wit 2 1 3; Wit 3 1 3; Wit 5 1 3; Wit 881 1 2]); [constructor; [exact pr_2|]; constructor; [exact pr_3|]; constructor; [exact pr_5|]; constructor; [exact pr_881|]; constructor|vm_compute; reflexivity]. Qed.
Lemma pr_18014398495457281 : prime 18014398495457281.
Proof. apply (pocklington _ [Wit 2 17 13; Wit 3 1 5; Wit 5 1 2; Wit 7 1 2; Wit 26431 1 2]); [constructor; [exact pr_2|]; constructor; [exact pr_3|]; constructor; [exact pr_5|]; constructor; [exact pr_7|]; constructor; [exact pr_26431|]; constructor|vm_compute; reflexivity]. Qed.
Lemma pr_127 : prime 127. Proof. apply is_prime_ok. vm_compute. reflexivity. Qed.
Lemma pr_18014398492311553 : prime 18014398492311553.
Proof. apply (pocklington _ [Wit 2 17 5; Wit 3 1 5; Wit 23 1 2; Wit 127 1 2]); [constructor; [exact pr_2|]; constructor; [exact pr_3|]; constructor; [exact pr_23|]; constructor; [exact pr_127|]; constructor|vm_compute; reflexivity]. Qed.
Lemma pr_2129 : prime 2129. Proof. apply is_prime_ok. vm_compute. reflexivity. Qed.
Lemma pr_1307 : prime 1307. Proof. apply is_prime_ok. vm_compute. reflexivity. Qed.
Lemma pr_219577 : prime 219577.
Proof. apply (pocklington _ [Wit 2 3 5; Wit 3 1 2; Wit 7 1 2; Wit 1307 1 2]); [constructor; [exact pr_2|]; constructor; [exact pr_3|]; constructor; [exact pr_7|]; constructor; [exact pr_1307|]; constructor|vm_compute; reflexivity]. Qed.
Lemma pr_6544712063 : prime 6544712063.
Proof. apply (pocklington _ [Wit 2 1 5; Wit 7 1 2; Wit 2129 1 2; Wit 219577 1 2]); [constructor; [exact pr_2|]; constructor; [exact pr_7|]; constructor; [exact pr_2129|]; constructor; [exact pr_219577|]; constructor|vm_compute; reflexivity]. Qed.
Lemma pr_274877906647 : prime 274877906647.
Proof. apply (pocklington _ [Wit 2 1 3; Wit 3 1 2; Wit 7 1 2; Wit 6544712063 1 2]); [constructor; [exact pr_2|]; constructor; [exact pr_3|]; constructor; [exact pr_7|]; constructor; [exact pr_6544712063|]; constructor|vm_compute; reflexivity]. Qed.
Lemma pr_18014398490017793 : prime 18014398490017793.
Proof. apply (pocklington _ [Wit 2 16 3; Wit 274877906647 1 2]); [constructor; [exact pr_2|]; constructor; [exact pr_274877906647|]; constructor|vm_compute; reflexivity]. Qed.
Lemma pr_251 : prime 251. Proof. apply is_prime_ok. vm_compute. reflexivity. Qed.
Lemma pr_18014398487068673 : prime 18014398487068673.
Proof. apply (pocklington _ [Wit 2 17 3; Wit 13 1 2; Wit 251 1 2]); [constructor; [exact pr_2|]; constructor; [exact pr_13|]; constructor; [exact pr_251|]; constructor|vm_compute; reflexivity]. Qed.
Lemma pr_397 : prime 397. Proof. apply is_prime_ok. vm_compute. reflexivity. Qed.
Lemma pr_18014398485495809 : prime 18014398485495809.
Proof. apply (pocklington _ [Wit 2 17 3; Wit 11 1 2; Wit 397 1 2]); [constructor; [exact pr_2|]; constructor; [exact pr_11|]; constructor; [exact pr_397|]; constructor|vm_compute; reflexivity]. Qed.
Lemma pr_659 : prime 659. Proof. apply is_prime_ok. vm_compute. reflexivity. Qed.
Lemma pr_18014398483857409 : prime 18014398483857409.
Proof. apply (pocklington _ [Wit 2 16 11; Wit 3 2 2; Wit 659 1 2]); [constructor; [exact pr_2|]; constructor; [exact pr_3|]; constructor; [exact pr_659|]; constructor|vm_compute; reflexivity]. Qed.
Lemma pr_47 : prime 47. Proof. apply is_prime_ok. vm_compute. reflexivity. Qed.
Lemma pr_109 : prime 109. Proof. apply is_prime_ok. vm_compute. reflexivity. Qed.
Lemma pr_10247 : prime 10247.
Proof. apply (pocklington _ [Wit 2 1 5; Wit 47 1 2; Wit 109 1 2]); [constructor; [exact pr_2|]; constructor; [exact pr_47|]; constructor; [exact pr_109|]; constructor|vm_compute; reflexivity]. Qed.
Lemma pr_2593187797 : prime 2593187797.
Proof. apply (pocklington _ [Wit 2 2 2; Wit 3 1 3; Wit 10247 1 2]); [constructor; [exact pr_2|]; constructor; [exact pr_3|]; constructor; [exact pr_10247|]; constructor|vm_compute; reflexivity]. Qed.
Lemma pr_18014398479204353 : prime 18014398479204353.
Proof. apply (pocklington _ [Wit 2 17 3; Wit 53 1 2; Wit 2593187797 1 2]); [constructor; [exact pr_2|]; constructor; [exact pr_53|]; constructor; [exact pr_2593187797|]; constructor|vm_compute; reflexivity]. Qed.
Lemma pr_29 : prime 29. Proof. apply is_prime_ok. vm_compute. reflexivity. Qed.
Lemma pr_205209337 : prime 205209337.
Proof. apply (pocklington _ [Wit 2 3 5; Wit 3 1 2; Wit 29 1 2; Wit 31 1 2]); [constructor; [exact pr_2|]; constructor; [exact pr_3|]; constructor; [exact pr_29|]; constructor; [exact pr_31|]; constructor|vm_compute; reflexivity]. Qed.
Lemma pr_36028797014704129 : prime 36028797014704129.
Proof. apply (pocklington _ [Wit 2 16 7; Wit 3 1 3; Wit 19 1 2; Wit 47 1 2; Wit 205209337 1 2]); [constructor; [exact pr_2|]; constructor; [exact pr_3|]; constructor; [exact pr_19|]; constructor; [exact pr_47|]; constructor; [exact pr_205209337|]; constructor|vm_compute; reflexivity]. Qed.
Lemma pr_43 : prime 43. Proof. apply is_prime_ok. vm_compute. reflexivity. Qed.
Lemma pr_67 : prime 67. Proof. apply is_prime_ok. vm_compute. reflexivity. Qed.
Lemma pr_36028797014376449 : prime 36028797014376449.
Proof. apply (pocklington _ [Wit 2 17 3; Wit 43 1 2; Wit 67 1 2]); [constructor; [exact pr_2|]; constructor; [exact pr_43|]; constructor; [exact pr_67|]; constructor|vm_compute; reflexivity]. Qed.
Lemma pr_233 : prime 233. Proof. apply is_prime_ok. vm_compute. reflexivity. Qed.
Lemma pr_409 : prime 409. Proof. apply is_prime_ok. vm_compute. reflexivity. Qed.
Lemma pr_549755813797 : prime 549755813797.
Proof. apply (pocklington _ [Wit 2 2 2; Wit 3 1 2; Wit 7 2 2; Wit 233 1 2; Wit 409 1 2]); [constructor; [exact pr_2|]; constructor; [exact pr_3|]; constructor; [exact pr_7|]; constructor; [exact pr_233|]; constructor; [exact pr_409|]; constructor|vm_compute; reflexivity]. Qed.
Lemma pr_36028797013000193 : prime 36028797013000193.
Proof. apply (pocklington _ [Wit 2 16 3; Wit 549755813797 1 2]); [constructor; [exact pr_2|]; constructor; [exact pr_549755813797|]; constructor|vm_compute; reflexivity]. Qed.
Lemma pr_3511 : prime 3511. Proof. apply is_prime_ok. vm_compute. reflexivity. Qed.
Lemma pr_36028797010444289 : prime 36028797010444289.
Proof. apply (pocklington _ [Wit 2 17 3; Wit 3511 1 2]); [constructor; [exact pr_2|]; constructor; [exact pr_3511|]; constructor|vm_compute; reflexivity]. Qed.
Lemma pr_1152921504606584833 : prime 1152921504606584833.
Proof. apply (pocklington _ [Wit 2 18 5; Wit 3 2 3; Wit 7 2 2; Wit 43 1 3]); [constructor; [exact pr_2|]; constructor; [exact pr_3|]; constructor; [exact pr_7|]; constructor; [exact pr_43|]; constructor|vm_compute; reflexivity]. Qed.
Lemma pr_571 : prime 571. Proof. apply is_prime_ok. vm_compute. reflexivity. Qed.
Lemma pr_2099 : prime 2099. Proof. apply is_prime_ok. vm_compute. reflexivity. Qed.
Lemma pr_1152921504598720513 : prime 1152921504598720513.
Proof. apply (pocklington _ [Wit 2 18 5; Wit 3 1 3; Wit 571 1 2; Wit 2099 1 2]); [constructor; [exact pr_2|]; constructor; [exact pr_3|]; constructor; [exact pr_571|]; constructor; [exact pr_2099|]; constructor|vm_compute; reflexivity]. Qed.
Lemma pr_9007199252840449 : prime 9007199252840449.
Proof. apply (pocklington _ [Wit 2 16 7; Wit 3 5 2; Wit 11 1 3]); [constructor; [exact pr_2|]; constructor; [exact pr_3|]; constructor; [exact pr_11|]; constructor|vm_compute; reflexivity]. Qed.
Lemma pr_610839793 : prime 610839793.
Proof. apply (pocklington _ [Wit 2 4 5; Wit 3 5 7; Wit 157109 1 2]); [constructor; [exact pr_2|]; constructor; [exact pr_3|]; constructor; [exact pr_157109|]; constructor|vm_compute; reflexivity]. Qed.
Lemma pr_9007199251660801 : prime 9007199251660801.
Proof. apply (pocklington _ [Wit 2 16 17; Wit 3 2 2; Wit 5 2 2; Wit 610839793 1 2]); [constructor; [exact pr_2|]; constructor; [exact pr_3|]; constructor; [exact pr_5|]; constructor; [exact pr_610839793|]; constructor|vm_compute; reflexivity]. Qed.
Lemma pr_23071 : prime 23071.
Proof. apply (pocklington _ [Wit 2 1 3; Wit 3 1 2; Wit 5 1 2; Wit 769 1 2]); [constructor; [exact pr_2|]; constructor; [exact pr_3|]; constructor; [exact pr_5|]; constructor; [exact pr_769|]; constructor|vm_compute; reflexivity]. Qed.
Lemma pr_9007199250481153 : prime 9007199250481153.
Proof. apply (pocklington _ [Wit 2 16 5; Wit 3 2 2; Wit 7 1 2; Wit 23071 1 2]); [constructor; [exact pr_2|]; constructor; [exact pr_3|]; constructor; [exact pr_7|]; constructor; [exact pr_23071|]; constructor|vm_compute; reflexivity]. Qed.
Lemma pr_1061 : prime 1061. Proof. apply is_prime_ok. vm_compute. reflexivity. Qed.
Lemma pr_6367 : prime 6367.
Proof. apply (pocklington _ [Wit 2 1 3; Wit 3 1 2; Wit 1061 1 2]); [constructor; [exact pr_2|]; constructor; [exact pr_3|]; constructor; [exact pr_1061|]; constructor|vm_compute; reflexivity]. Qed.
Lemma pr_119923 : prime 119923.
Proof. apply (pocklington _ [Wit 2 1 2; Wit 3 1 2; Wit 11 1 3; Wit 23 1 2]); [constructor; [exact pr_2|]; constructor; [exact pr_3|]; constructor; [exact pr_11|]; constructor; [exact pr_23|]; constructor|vm_compute; reflexivity]. Qed.
Lemma pr_7635497411 : prime 7635497411.
Proof. apply (pocklington _ [Wit 2 1 2; Wit 5 1 2; Wit 6367 1 2; Wit 119923 1 2]); [constructor; [exact pr_2|]; constructor; [exact pr_5|]; constructor; [exact pr_6367|]; constructor; [exact pr_119923|]; constructor|vm_compute; reflexivity]. Qed.
Lemma pr_9007199249891329 : prime 9007199249891329.
Proof. apply (pocklington _ [Wit 2 17 13; Wit 3 2 3; Wit 7635497411 1 2]); [constructor; [exact pr_2|]; constructor; [exact pr_3|]; constructor; [exact pr_7635497411|]; constructor|vm_compute; reflexivity]. Qed.
Lemma pr_9007199247532033 : prime 9007199247532033.
Proof. apply (pocklington _ [Wit 2 17 5; Wit 3 4 2; Wit 10337 1 2]); [constructor; [exact pr_2|]; constructor; [exact pr_3|]; constructor; [exact pr_10337|]; constructor|vm_compute; reflexivity]. Qed.
Lemma pr_9007199252119553 : prime 9007199252119553.
Proof. apply (pocklington _ [Wit 2 19 3; Wit 11 1 2; Wit 19 1 2]); [constructor; [exact pr_2|]; constructor; [exact pr_11|]; constructor; [exact pr_19|]; constructor|vm_compute; reflexivity]. Qed.
Lemma pr_103 : prime 103. Proof. apply is_prime_ok. vm_compute. reflexivity. Qed.
Lemma pr_9007199250874369 : prime 9007199250874369.
Proof. apply (pocklington _ [Wit 2 16 7; Wit 3 1 2; Wit 19 1 2; Wit 103 1 2]); [constructor; [exact pr_2|]; constructor; [exact pr_3|]; constructor; [exact pr_19|]; constructor; [exact pr_103|]; constructor|vm_compute; reflexivity]. Qed.
Lemma pr_45812984467 : prime 45812984467.
Proof. apply (pocklington _ [Wit 2 1 2; Wit 3 1 3; Wit 7635497411 1 2]); [constructor; [exact pr_2|]; constructor; [exact pr_3|]; constructor; [exact pr_7635497411|]; constructor|vm_compute; reflexivity]. Qed.
Lemma pr_9007199250087937 : prime 9007199250087937.
Proof. apply (pocklington _ [Wit 2 16 5; Wit 3 1 3; Wit 45812984467 1 2]); [constructor; [exact pr_2|]; constructor; [exact pr_3|]; constructor; [exact pr_45812984467|]; constructor|vm_compute; reflexivity]. Qed.
Lemma pr_353 : prime 353. Proof. apply is_prime_ok. vm_compute. reflexivity. Qed.
Lemma pr_6449 : prime 6449.
Proof. apply (pocklington _ [Wit 2 4 3; Wit 13 1 2]); [constructor; [exact pr_2|]; constructor; [exact pr_13|]; constructor|vm_compute; reflexivity]. Qed.
Lemma pr_9007199248777217 : prime 9007199248777217.
Proof. apply (pocklington _ [Wit 2 16 3; Wit 353 1 2; Wit 6449 1 2]); [constructor; [exact pr_2|]; constructor; [exact pr_353|]; constructor; [exact pr_6449|]; constructor|vm_compute; reflexivity]. Qed.
Lemma pr_181 : prime 181. Proof. apply is_prime_ok. vm_compute. reflexivity. Qed.
Lemma pr_22605091 : prime 22605091.
Proof. apply (pocklington _ [Wit 2 1 2; Wit 3 1 7; Wit 5 1 2; Wit 23 1 2; Wit 181 2 2]); [constructor; [exact pr_2|]; constructor; [exact pr_3|]; constructor; [exact pr_5|]; constructor; [exact pr_23|]; constructor; [exact pr_181|]; constructor|vm_compute; reflexivity]. Qed.
Lemma pr_1717986917 : prime 1717986917.
Proof. apply (pocklington _ [Wit 2 2 2; Wit 19 1 2; Wit 22605091 1 2]); [constructor; [exact pr_2|]; constructor; [exact pr_19|]; constructor; [exact pr_22605091|]; constructor|vm_compute; reflexivity]. Qed.
Lemma pr_9007199247400961 : prime 9007199247400961.
Proof. apply (pocklington _ [Wit 2 20 3; Wit 5 1 2; Wit 1717986917 1 2]); [constructor; [exact pr_2|]; constructor; [exact pr_5|]; constructor; [exact pr_1717986917|]; constructor|vm_compute; reflexivity]. Qed.
Lemma pr_41 : prime 41. Proof. apply is_prime_ok. vm_compute. reflexivity. Qed.
Lemma pr_157523 : prime 157523.
Proof. apply (pocklington _ [Wit 2 1 2; Wit 17 1 2; Wit 41 1 2]); [constructor; [exact pr_2|]; constructor; [exact pr_17|]; constructor; [exact pr_41|]; constructor|vm_compute; reflexivity]. Qed.
Lemma pr_315047 : prime 315047.
Proof. apply (pocklington _ [Wit 2 1 5; Wit 157523 1 2]); [constructor; [exact pr_2|]; constructor; [exact pr_157523|]; constructor|vm_compute; reflexivity]. Qed.
Lemma pr_1152921504597016577 : prime 1152921504597016577.
Proof. apply (pocklington _ [Wit 2 17 3; Wit 315047 1 2]); [constructor; [exact pr_2|]; constructor; [exact pr_315047|]; constructor|vm_compute; reflexivity]. Qed.
Lemma pr_281 : prime 281. Proof. apply is_prime_ok. vm_compute. reflexivity. Qed.
Lemma pr_439 : prime 439. Proof. apply is_prime_ok. vm_compute. reflexivity. Qed.
Lemma pr_1841342479 : prime 1841342479.
Proof. apply (pocklington _ [Wit 2 1 3; Wit 3 1 3; Wit 19 1 2; Wit 439 1 2]); [constructor; [exact pr_2|]; constructor; [exact pr_3|]; constructor; [exact pr_19|]; constructor; [exact pr_439|]; constructor|vm_compute; reflexivity]. Qed.
Lemma pr_576460752301785089 : prime 576460752301785089.
Proof. apply (pocklington _ [Wit 2 16 3; Wit 17 1 2; Wit 281 1 2; Wit 1841342479 1 2]); [constructor; [exact pr_2|]; constructor; [exact pr_17|]; constructor; [exact pr_281|]; constructor; [exact pr_1841342479|]; constructor|vm_compute; reflexivity]. Qed.
Lemma pr_383 : prime 383. Proof. apply is_prime_ok. vm_compute. reflexivity. Qed.
Lemma pr_733 : prime 733. Proof. apply is_prime_ok. vm_compute. reflexivity. Qed.
Lemma pr_1931 : prime 1931. Proof. apply is_prime_ok. vm_compute. reflexivity. Qed.
Lemma pr_11587 : prime 11587.
Proof. apply (pocklington _ [Wit 2 1 2; Wit 3 1 2; Wit 1931 1 2]); [constructor; [exact pr_2|]; constructor; [exact pr_3|]; constructor; [exact pr_1931|]; constructor|vm_compute; reflexivity]. Qed.
Lemma pr_46349 : prime 46349.
Proof. apply (pocklington _ [Wit 2 2 2; Wit 11587 1 2]); [constructor; [exact pr_2|]; constructor; [exact pr_11587|]; constructor|vm_compute; reflexivity]. Qed.
Lemma pr_883319243 : prime 883319243.
Proof. apply (pocklington _ [Wit 2 1 2; Wit 13 1 2; Wit 733 1 2; Wit 46349 1 2]); [constructor; [exact pr_2|]; constructor; [exact pr_13|]; constructor; [exact pr_733|]; constructor; [exact pr_46349|]; constructor|vm_compute; reflexivity]. Qed.
Lemma pr_22966300319 : prime 22966300319.
Proof. apply (pocklington _ [Wit 2 1 7; Wit 13 1 3; Wit 883319243 1 2]); [constructor; [exact pr_2|]; constructor; [exact pr_13|]; constructor; [exact pr_883319243|]; constructor|vm_compute; reflexivity]. Qed.
Lemma pr_576460752301391873 : prime 576460752301391873.
Proof. apply (pocklington _ [Wit 2 16 3; Wit 383 1 2; Wit 22966300319 1 2]); [constructor; [exact pr_2|]; constructor; [exact pr_383|]; constructor; [exact pr_22966300319|]; constructor|vm_compute; reflexivity]. Qed.
Lemma pr_4503599626321921 : prime 4503599626321921.
Proof. apply (pocklington _ [Wit 2 20 7; Wit 3 1 7; Wit 5 1 2; Wit 17 1 2]); [constructor; [exact pr_2|]; constructor; [exact pr_3|]; constructor; [exact pr_5|]; constructor; [exact pr_17|]; constructor|vm_compute; reflexivity]. Qed.
Lemma pr_636291451 : prime 636291451.
Proof. apply (pocklington _ [Wit 2 1 2; Wit 3 4 5; Wit 5 2 2; Wit 157109 1 2]); [constructor; [exact pr_2|]; constructor; [exact pr_3|]; constructor; [exact pr_5|]; constructor; [exact pr_157109|]; constructor|vm_compute; reflexivity]. Qed.
Lemma pr_4503599625535489 : prime 4503599625535489.
Proof. apply (pocklington _ [Wit 2 18 7; Wit 3 3 2; Wit 636291451 1 2]); [constructor; [exact pr_2|]; constructor; [exact pr_3|]; constructor; [exact pr_636291451|]; constructor|vm_compute; reflexivity]. Qed.
Lemma pr_113 : prime 113. Proof. apply is_prime_ok. vm_compute. reflexivity. Qed.
Lemma pr_373 : prime 373. Proof. apply is_prime_ok. vm_compute. reflexivity. Qed.
Lemma pr_4503599625404417 : prime 4503599625404417.
Proof. apply (pocklington _ [Wit 2 17 3; Wit 113 1 2; Wit 373 1 2]); [constructor; [exact pr_2|]; constructor; [exact pr_113|]; constructor; [exact pr_373|]; constructor|vm_compute; reflexivity]. Qed.
Lemma pr_1783 : prime 1783. Proof. apply is_prime_ok. vm_compute. reflexivity. Qed.
Lemma pr_4503599623045121 : prime 4503599623045121.
Proof. apply (pocklington _ [Wit 2 17 3; Wit 5 1 2; Wit 13 1 2; Wit 1783 1 2]); [constructor; [exact pr_2|]; constructor; [exact pr_5|]; constructor; [exact pr_13|]; constructor; [exact pr_1783|]; constructor|vm_compute; reflexivity]. Qed.
Lemma pr_811 : prime 811. Proof. apply is_prime_ok. vm_compute. reflexivity. Qed.
Lemma pr_9733 : prime 9733.
Proof. apply (pocklington _ [Wit 2 2 2; Wit 3 1 2; Wit 811 1 2]); [constructor; [exact pr_2|]; constructor; [exact pr_3|]; constructor; [exact pr_811|]; constructor|vm_compute; reflexivity]. Qed.
Lemma pr_4503599621472257 : prime 4503599621472257.
Proof. apply (pocklington _ [Wit 2 17 3; Wit 9733 1 2]); [constructor; [exact pr_2|]; constructor; [exact pr_9733|]; constructor|vm_compute; reflexivity]. Qed.
Lemma pr_593 : prime 593. Proof. apply is_prime_ok. vm_compute. reflexivity. Qed.
Lemma pr_4721467 : prime 4721467.
Proof. apply (pocklington _ [Wit 2 1 2; Wit 3 1 5; Wit 593 1 2]); [constructor; [exact pr_2|]; constructor; [exact pr_3|]; constructor; [exact pr_593|]; constructor|vm_compute; reflexivity]. Qed.
Lemma pr_6373980451 : prime 6373980451.
Proof. apply (pocklington _ [Wit 2 1 2; Wit 3 3 2; Wit 5 2 2; Wit 4721467 1 2]); [constructor; [exact pr_2|]; constructor; [exact pr_3|]; constructor; [exact pr_5|]; constructor; [exact pr_4721467|]; constructor|vm_compute; reflexivity]. Qed.
Lemma pr_144115188078673921 : prime 144115188078673921.
Proof. apply (pocklington _ [Wit 2 16 11; Wit 3 1 3; Wit 5 1 3; Wit 23 1 3; Wit 6373980451 1 2]); [constructor; [exact pr_2|]; constructor; [exact pr_3|]; constructor; [exact pr_5|]; constructor; [exact pr_23|]; constructor; [exact pr_6373980451|]; constructor|vm_compute; reflexivity]. Qed.
Lemma pr_140737488486401 : prime 140737488486401.
Proof. apply (pocklington _ [Wit 2 17 3; Wit 5 2 2; Wit 13 1 2]); [constructor; [exact pr_2|]; constructor; [exact pr_5|]; constructor; [exact pr_13|]; constructor|vm_compute; reflexivity]. Qed.
Lemma pr_140737490976769 : prime 140737490976769.
Proof. apply (pocklington _ [Wit 2 19 13; Wit 3 1 3; Wit 7 1 2; Wit 23 1 2]); [constructor; [exact pr_2|]; constructor; [exact pr_3|]; constructor; [exact pr_7|]; constructor; [exact pr_23|]; constructor|vm_compute; reflexivity]. Qed.
Lemma pr_140737493729281 : prime 140737493729281.
Proof. apply (pocklington _ [Wit 2 17 13; Wit 3 1 2; Wit 5 1 3; Wit 7 1 2]); [constructor; [exact pr_2|]; constructor; [exact pr_3|]; constructor; [exact pr_5|]; constructor; [exact pr_7|]; constructor|vm_compute; reflexivity]. Qed.
Lemma pr_140737496154113 : prime 140737496154113.
Proof. apply (pocklington _ [Wit 2 16 3; Wit 11 1 2; Wit 13 1 2; Wit 127 1 2]); [constructor; [exact pr_2|]; constructor; [exact pr_11|]; constructor; [exact pr_13|]; constructor; [exact pr_127|]; constructor|vm_compute; reflexivity]. Qed.
Lemma pr_101 : prime 101. Proof. apply is_prime_ok. vm_compute. reflexivity. Qed.
Lemma pr_269 : prime 269. Proof. apply is_prime_ok. vm_compute. reflexivity. Qed.
Lemma pr_69941 : prime 69941.
Proof. apply (pocklington _ [Wit 2 2 2; Wit 5 1 2; Wit 13 1 2; Wit 269 1 2]); [constructor; [exact pr_2|]; constructor; [exact pr_5|]; constructor; [exact pr_13|]; constructor; [exact pr_269|]; constructor|vm_compute; reflexivity]. Qed.
Lemma pr_139883 : prime 139883.
Proof. apply (pocklington _ [Wit 2 1 2; Wit 69941 1 2]); [constructor; [exact pr_2|]; constructor; [exact pr_69941|]; constructor|vm_compute; reflexivity]. Qed.
Lemma pr_1073741909 : prime 1073741909.
Proof. apply (pocklington _ [Wit 2 2 2; Wit 19 1 2; Wit 101 1 2; Wit 139883 1 2]); [constructor; [exact pr_2|]; constructor; [exact pr_19|]; constructor; [exact pr_101|]; constructor; [exact pr_139883|]; constructor|vm_compute; reflexivity]. Qed.
Lemma pr_140737499496449 : prime 140737499496449.
Proof. apply (pocklington _ [Wit 2 17 3; Wit 1073741909 1 2]); [constructor; [exact pr_2|]; constructor; [exact pr_1073741909|]; constructor|vm_compute; reflexivity]. Qed.
Lemma pr_71 : prime 71. Proof. apply is_prime_ok. vm_compute. reflexivity. Qed.
Lemma pr_140737499693057 : prime 140737499693057.
Proof. apply (pocklington _ [Wit 2 16 3; Wit 7 1 2; Wit 71 1 2]); [constructor; [exact pr_2|]; constructor; [exact pr_7|]; constructor; [exact pr_71|]; constructor|vm_compute; reflexivity]. Qed.
Lemma pr_491 : prime 491. Proof. apply is_prime_ok. vm_compute. reflexivity. Qed.
Lemma pr_18691 : prime 18691.
Proof. apply (pocklington _ [Wit 2 1 2; Wit 3 1 2; Wit 5 1 3; Wit 7 1 2]); [constructor; [exact pr_2|]; constructor; [exact pr_3|]; constructor; [exact pr_5|]; constructor; [exact pr_7|]; constructor|vm_compute; reflexivity]. Qed.
Lemma pr_18354563 : prime 18354563.
Proof. apply (pocklington _ [Wit 2 1 2; Wit 491 1 2; Wit 18691 1 2]); [constructor; [exact pr_2|]; constructor; [exact pr_491|]; constructor; [exact pr_18691|]; constructor|vm_compute; reflexivity]. Qed.
Lemma pr_140737502969857 : prime 140737502969857.
Proof. apply (pocklington _ [Wit 2 16 5; Wit 3 2 2; Wit 13 1 2; Wit 18354563 1 2]); [constructor; [exact pr_2|]; constructor; [exact pr_3|]; constructor; [exact pr_13|]; constructor; [exact pr_18354563|]; constructor|vm_compute; reflexivity]. Qed.
Lemma pr_140737504608257 : prime 140737504608257.
Proof. apply (pocklington _ [Wit 2 19 3; Wit 41 1 2]); [constructor; [exact pr_2|]; constructor; [exact pr_41|]; constructor|vm_compute; reflexivity]. Qed.

Definition m15_3fffffffd60001 : modulus := Mod 18014398506729473 17965612358773772.
Lemma m15_3fffffffd60001_ok : okmod (N := N15) m15_3fffffffd60001.
Proof. apply shipped_mod15; [exact pr_18014398506729473|vm_compute; reflexivity]. Qed.
Definition m15_3fffffff6d0001 : modulus := Mod 18014398499848193 4879360000855566.
Lemma m15_3fffffff6d0001_ok : okmod (N := N15) m15_3fffffff6d0001.
Proof. apply shipped_mod15; [exact pr_18014398499848193|vm_compute; reflexivity]. Qed.
Definition m15_3fffffff550001 : modulus := Mod 18014398498275329 12399842671717063.
Lemma m15_3fffffff550001_ok : okmod (N := N15) m15_3fffffff550001.
Proof. apply shipped_mod15; [exact pr_18014398498275329|vm_compute; reflexivity]. Qed.
Definition m15_3fffffff360001 : modulus := Mod 18014398496243713 15678278338511305.
Lemma m15_3fffffff360001_ok : okmod (N := N15) m15_3fffffff360001.
Proof. apply shipped_mod15; [exact pr_18014398496243713|vm_compute; reflexivity]. Qed.
Definition m15_3fffffff000001 : modulus := Mod 18014398492704769 15830018916026548.
Lemma m15_3fffffff000001_ok : okmod (N := N15) m15_3fffffff000001.
Proof. apply shipped_mod15; [exact pr_18014398492704769|vm_compute; reflexivity]. Qed.
Definition m15_3ffffffef40001 : modulus := Mod 18014398491918337 2151277581576054.
Lemma m15_3ffffffef40001_ok : okmod (N := N15) m15_3ffffffef40001.
Proof. apply shipped_mod15; [exact pr_18014398491918337|vm_compute; reflexivity]. Qed.
Definition m15_3ffffffed30001 : modulus := Mod 18014398489755649 17022205020376607.
Lemma m15_3ffffffed30001_ok : okmod (N := N15) m15_3ffffffed30001.
Proof. apply shipped_mod15; [exact pr_18014398489755649|vm_compute; reflexivity]. Qed.
Definition m15_3ffffffe970001 : modulus := Mod 18014398485823489 10875921816360843.
Lemma m15_3ffffffe970001_ok : okmod (N := N15) m15_3ffffffe970001.
Proof. apply shipped_mod15; [exact pr_18014398485823489|vm_compute; reflexivity]. Qed.
Definition m15_3ffffffe800001 : modulus := Mod 18014398484316161 8708187168218502.
Lemma m15_3ffffffe800001_ok : okmod (N := N15) m15_3ffffffe800001.
Proof. apply shipped_mod15; [exact pr_18014398484316161|vm_compute; reflexivity]. Qed.
Definition m15_3ffffffe410001 : modulus := Mod 18014398480187393 9519581413306459.
Lemma m15_3ffffffe410001_ok : okmod (N := N15) m15_3ffffffe410001.
Proof. apply shipped_mod15; [exact pr_18014398480187393|vm_compute; reflexivity]. Qed.
Definition m15_7fffffffe90001 : modulus := Mod 36028797017456641 24492405559861051.
Lemma m15_7fffffffe90001_ok : okmod (N := N15) m15_7fffffffe90001.
Proof. apply shipped_mod15; [exact pr_36028797017456641|vm_compute; reflexivity]. Qed.
Definition m15_7fffffffbd0001 : modulus := Mod 36028797014573057 9738312694544604.
Lemma m15_7fffffffbd0001_ok : okmod (N := N15) m15_7fffffffbd0001.
Proof. apply shipped_mod15; [exact pr_36028797014573057|vm_compute; reflexivity]. Qed.
Definition m15_7fffffffaa0001 : modulus := Mod 36028797013327873 1092320921805169.
Lemma m15_7fffffffaa0001_ok : okmod (N := N15) m15_7fffffffaa0001.
Proof. apply shipped_mod15; [exact pr_36028797013327873|vm_compute; reflexivity]. Qed.
Definition m15_7fffffff9f0001 : modulus := Mod 36028797012606977 21715366581594520.
Lemma m15_7fffffff9f0001_ok : okmod (N := N15) m15_7fffffff9f0001.
Proof. apply shipped_mod15; [exact pr_36028797012606977|vm_compute; reflexivity]. Qed.
Definition m15_3fffffffca0001 : modulus := Mod 18014398505943041 12474175070067225.
Lemma m15_3fffffffca0001_ok : okmod (N := N15) m15_3fffffffca0001.
Proof. apply shipped_mod15; [exact pr_18014398505943041|vm_compute; reflexivity]. Qed.
Definition m15_3fffffff5d0001 : modulus := Mod 18014398498799617 2697199737055144.
Lemma m15_3fffffff5d0001_ok : okmod (N := N15) m15_3fffffff5d0001.
Proof. apply shipped_mod15; [exact pr_18014398498799617|vm_compute; reflexivity]. Qed.
Definition m15_3fffffff390001 : modulus := Mod 18014398496440321 2637855342907683.
Lemma m15_3fffffff390001_ok : okmod (N := N15) m15_3fffffff390001.
Proof. apply shipped_mod15; [exact pr_18014398496440321|vm_compute; reflexivity]. Qed.
Definition m15_3fffffff2a0001 : modulus := Mod 18014398495457281 16689072915307334.
Lemma m15_3fffffff2a0001_ok : okmod (N := N15) m15_3fffffff2a0001.
Proof. apply shipped_mod15; [exact pr_18014398495457281|vm_compute; reflexivity]. Qed.
Definition m15_3ffffffefa0001 : modulus := Mod 18014398492311553 5919288865957998.
Lemma m15_3ffffffefa0001_ok : okmod (N := N15) m15_3ffffffefa0001.
Proof. apply shipped_mod15; [exact pr_18014398492311553|vm_compute; reflexivity]. Qed.
Definition m15_3ffffffed70001 : modulus := Mod 18014398490017793 9262645573027320.
Lemma m15_3ffffffed70001_ok : okmod (N := N15) m15_3ffffffed70001.
Proof. apply shipped_mod15; [exact pr_18014398490017793|vm_compute; reflexivity]. Qed.
Definition m15_3ffffffeaa0001 : modulus := Mod 18014398487068673 12232586527693525.
Lemma m15_3ffffffeaa0001_ok : okmod (N := N15) m15_3ffffffeaa0001.
Proof. apply shipped_mod15; [exact pr_18014398487068673|vm_compute; reflexivity]. Qed.
Definition m15_3ffffffe920001 : modulus := Mod 18014398485495809 7095667632875899.
Lemma m15_3ffffffe920001_ok : okmod (N := N15) m15_3ffffffe920001.
Proof. apply shipped_mod15; [exact pr_18014398485495809|vm_compute; reflexivity]. Qed.
Definition m15_3ffffffe790001 : modulus := Mod 18014398483857409 10954602178181752.
Lemma m15_3ffffffe790001_ok : okmod (N := N15) m15_3ffffffe790001.
Proof. apply shipped_mod15; [exact pr_18014398483857409|vm_compute; reflexivity]. Qed.
Definition m15_3ffffffe320001 : modulus := Mod 18014398479204353 7201598451811247.
Lemma m15_3ffffffe320001_ok : okmod (N := N15) m15_3ffffffe320001.
Proof. apply shipped_mod15; [exact pr_18014398479204353|vm_compute; reflexivity]. Qed.
Definition m15_7fffffffbf0001 : modulus := Mod 36028797014704129 6512428802606947.
Lemma m15_7fffffffbf0001_ok : okmod (N := N15) m15_7fffffffbf0001.
Proof. apply shipped_mod15; [exact pr_36028797014704129|vm_compute; reflexivity]. Qed.
Definition m15_7fffffffba0001 : modulus := Mod 36028797014376449 29059091189490644.
Lemma m15_7fffffffba0001_ok : okmod (N := N15) m15_7fffffffba0001.
Proof. apply shipped_mod15; [exact pr_36028797014376449|vm_compute; reflexivity]. Qed.
Definition m15_7fffffffa50001 : modulus := Mod 36028797013000193 1571592147724705.
Lemma m15_7fffffffa50001_ok : okmod (N := N15) m15_7fffffffa50001.
Proof. apply shipped_mod15; [exact pr_36028797013000193|vm_compute; reflexivity]. Qed.
Definition m15_7fffffff7e0001 : modulus := Mod 36028797010444289 19525391487962010.
Lemma m15_7fffffff7e0001_ok : okmod (N := N15) m15_7fffffff7e0001.
Proof. apply shipped_mod15; [exact pr_36028797010444289|vm_compute; reflexivity]. Qed.
Definition m15_ffffffffffc0001 : modulus := Mod 1152921504606584833 1100972123716672435.
Lemma m15_ffffffffffc0001_ok : okmod (N := N15) m15_ffffffffffc0001.
Proof. apply shipped_mod15; [exact pr_1152921504606584833|vm_compute; reflexivity]. Qed.
Definition m15_fffffffff840001 : modulus := Mod 1152921504598720513 684110995036099206.
Lemma m15_fffffffff840001_ok : okmod (N := N15) m15_fffffffff840001.
Proof. apply shipped_mod15; [exact pr_1152921504598720513|vm_compute; reflexivity]. Qed.
Definition m14_1fffffffe30001 : modulus := Mod 9007199252840449 54728457711594.
Lemma m14_1fffffffe30001_ok : okmod (N := N14) m14_1fffffffe30001.
Proof. apply shipped_mod14; [exact pr_9007199252840449|vm_compute; reflexivity]. Qed.
Definition m14_1fffffffd10001 : modulus := Mod 9007199251660801 1194447380597866.
Lemma m14_1fffffffd10001_ok : okmod (N := N14) m14_1fffffffd10001.
Proof. apply shipped_mod14; [exact pr_9007199251660801|vm_compute; reflexivity]. Qed.
Definition m14_1fffffffbf0001 : modulus := Mod 9007199250481153 8707114000956482.
Lemma m14_1fffffffbf0001_ok : okmod (N := N14) m14_1fffffffbf0001.
Proof. apply shipped_mod14; [exact pr_9007199250481153|vm_compute; reflexivity]. Qed.
Definition m14_1fffffffb60001 : modulus := Mod 9007199249891329 6744143536254105.
Lemma m14_1fffffffb60001_ok : okmod (N := N14) m14_1fffffffb60001.
Proof. apply shipped_mod14; [exact pr_9007199249891329|vm_compute; reflexivity]. Qed.
Definition m14_1fffffff920001 : modulus := Mod 9007199247532033 950630942767942.
Lemma m14_1fffffff920001_ok : okmod (N := N14) m14_1fffffff920001.
Proof. apply shipped_mod14; [exact pr_9007199247532033|vm_compute; reflexivity]. Qed.
Definition m14_3fffffffd60001 : modulus := Mod 18014398506729473 3845957860237811.
Lemma m14_3fffffffd60001_ok : okmod (N := N14) m14_3fffffffd60001.
Proof. apply shipped_mod14; [exact pr_18014398506729473|vm_compute; reflexivity]. Qed.
Definition m14_1fffffffd80001 : modulus := Mod 9007199252119553 80681471943247.
Lemma m14_1fffffffd80001_ok : okmod (N := N14) m14_1fffffffd80001.
Proof. apply shipped_mod14; [exact pr_9007199252119553|vm_compute; reflexivity]. Qed.
Definition m14_1fffffffc50001 : modulus := Mod 9007199250874369 3831614649833511.
Lemma m14_1fffffffc50001_ok : okmod (N := N14) m14_1fffffffc50001.
Proof. apply shipped_mod14; [exact pr_9007199250874369|vm_compute; reflexivity]. Qed.
Definition m14_1fffffffb90001 : modulus := Mod 9007199250087937 2281064738731181.
Lemma m14_1fffffffb90001_ok : okmod (N := N14) m14_1fffffffb90001.
Proof. apply shipped_mod14; [exact pr_9007199250087937|vm_compute; reflexivity]. Qed.
Definition m14_1fffffffa50001 : modulus := Mod 9007199248777217 7435291995887417.
Lemma m14_1fffffffa50001_ok : okmod (N := N14) m14_1fffffffa50001.
Proof. apply shipped_mod14; [exact pr_9007199248777217|vm_compute; reflexivity]. Qed.
Definition m14_1fffffff900001 : modulus := Mod 9007199247400961 6357814797290494.
Lemma m14_1fffffff900001_ok : okmod (N := N14) m14_1fffffff900001.
Proof. apply shipped_mod14; [exact pr_9007199247400961|vm_compute; reflexivity]. Qed.
Definition m14_3fffffffca0001 : modulus := Mod 18014398505943041 9079520982591265.
Lemma m14_3fffffffca0001_ok : okmod (N := N14) m14_3fffffffca0001.
Proof. apply shipped_mod14; [exact pr_18014398505943041|vm_compute; reflexivity]. Qed.
Definition m14_ffffffffffc0001 : modulus := Mod 1152921504606584833 56777109566560875.
Lemma m14_ffffffffffc0001_ok : okmod (N := N14) m14_ffffffffffc0001.
Proof. apply shipped_mod14; [exact pr_1152921504606584833|vm_compute; reflexivity]. Qed.
Definition m14_fffffffff840001 : modulus := Mod 1152921504598720513 1037877039958379439.
Lemma m14_fffffffff840001_ok : okmod (N := N14) m14_fffffffff840001.
Proof. apply shipped_mod14; [exact pr_1152921504598720513|vm_compute; reflexivity]. Qed.
Definition m15_fffffffff6a0001 : modulus := Mod 1152921504597016577 741224627014235163.
Lemma m15_fffffffff6a0001_ok : okmod (N := N15) m15_fffffffff6a0001.
Proof. apply shipped_mod15; [exact pr_1152921504597016577|vm_compute; reflexivity]. Qed.
Definition m15_7ffffffffe70001 : modulus := Mod 576460752301785089 68295455694347081.
Lemma m15_7ffffffffe70001_ok : okmod (N := N15) m15_7ffffffffe70001.
Proof. apply shipped_mod15; [exact pr_576460752301785089|vm_compute; reflexivity]. Qed.
Definition m15_7ffffffffe10001 : modulus := Mod 576460752301391873 7430198914596132.
Lemma m15_7ffffffffe10001_ok : okmod (N := N15) m15_7ffffffffe10001.
Proof. apply shipped_mod15; [exact pr_576460752301391873|vm_compute; reflexivity]. Qed.
Definition m14_7ffffffffe70001 : modulus := Mod 576460752301785089 270700918604529988.
Lemma m14_7ffffffffe70001_ok : okmod (N := N14) m14_7ffffffffe70001.
Proof. apply shipped_mod14; [exact pr_576460752301785089|vm_compute; reflexivity]. Qed.
Definition m14_ffffffff00001 : modulus := Mod 4503599626321921 4006422944391896.
Lemma m14_ffffffff00001_ok : okmod (N := N14) m14_ffffffff00001.
Proof. apply shipped_mod14; [exact pr_4503599626321921|vm_compute; reflexivity]. Qed.
Definition m14_fffffffe40001 : modulus := Mod 4503599625535489 418288754030296.
Lemma m14_fffffffe40001_ok : okmod (N := N14) m14_fffffffe40001.
Proof. apply shipped_mod14; [exact pr_4503599625535489|vm_compute; reflexivity]. Qed.
Definition m14_fffffffe20001 : modulus := Mod 4503599625404417 790431361655986.
Lemma m14_fffffffe20001_ok : okmod (N := N14) m14_fffffffe20001.
Proof. apply shipped_mod14; [exact pr_4503599625404417|vm_compute; reflexivity]. Qed.
Definition m14_fffffffbe0001 : modulus := Mod 4503599623045121 881138614017410.
Lemma m14_fffffffbe0001_ok : okmod (N := N14) m14_fffffffbe0001.
Proof. apply shipped_mod14; [exact pr_4503599623045121|vm_compute; reflexivity]. Qed.
Definition m14_fffffffa60001 : modulus := Mod 4503599621472257 3291220161230273.
Lemma m14_fffffffa60001_ok : okmod (N := N14) m14_fffffffa60001.
Proof. apply shipped_mod14; [exact pr_4503599621472257|vm_compute; reflexivity]. Qed.
Definition m14_2000000002b0001 : modulus := Mod 144115188078673921 112999938413243253.
Lemma m14_2000000002b0001_ok : okmod (N := N14) m14_2000000002b0001.
Proof. apply shipped_mod14; [exact pr_144115188078673921|vm_compute; reflexivity]. Qed.
Definition m14_800000020001 : modulus := Mod 140737488486401 60142849247854.
Lemma m14_800000020001_ok : okmod (N := N14) m14_800000020001.
Proof. apply shipped_mod14; [exact pr_140737488486401|vm_compute; reflexivity]. Qed.
Definition m14_800000280001 : modulus := Mod 140737490976769 54359299500977.
Lemma m14_800000280001_ok : okmod (N := N14) m14_800000280001.
Proof. apply shipped_mod14; [exact pr_140737490976769|vm_compute; reflexivity]. Qed.
Definition m14_800000520001 : modulus := Mod 140737493729281 110017044743481.
Lemma m14_800000520001_ok : okmod (N := N14) m14_800000520001.
Proof. apply shipped_mod14; [exact pr_140737493729281|vm_compute; reflexivity]. Qed.
Definition m14_800000770001 : modulus := Mod 140737496154113 39614246088598.
Lemma m14_800000770001_ok : okmod (N := N14) m14_800000770001.
Proof. apply shipped_mod14; [exact pr_140737496154113|vm_compute; reflexivity]. Qed.
Definition m14_800000aa0001 : modulus := Mod 140737499496449 121288312402916.
Lemma m14_800000aa0001_ok : okmod (N := N14) m14_800000aa0001.
Proof. apply shipped_mod14; [exact pr_140737499496449|vm_compute; reflexivity]. Qed.
Definition m14_800000ad0001 : modulus := Mod 140737499693057 58182432944569.
Lemma m14_800000ad0001_ok : okmod (N := N14) m14_800000ad0001.
Proof. apply shipped_mod14; [exact pr_140737499693057|vm_compute; reflexivity]. Qed.
Definition m14_800000df0001 : modulus := Mod 140737502969857 57972582327045.
Lemma m14_800000df0001_ok : okmod (N := N14) m14_800000df0001.
Proof. apply shipped_mod14; [exact pr_140737502969857|vm_compute; reflexivity]. Qed.
Definition m14_800000f80001 : modulus := Mod 140737504608257 83565438994101.
Lemma m14_800000f80001_ok : okmod (N := N14) m14_800000f80001.
Proof. apply shipped_mod14; [exact pr_140737504608257|vm_compute; reflexivity]. Qed.

(** mkbfv/mkbfv_test.go:28-74 PN15QP880 *)
Definition bfv15 : bparams := BP [m15_3fffffffd60001; m15_3fffffff6d0001; m15_3fffffff550001; m15_3fffffff360001; m15_3fffffff000001; m15_3ffffffef40001; m15_3ffffffed30001; m15_3ffffffe970001; m15_3ffffffe800001; m15_3ffffffe410001; m15_7fffffffe90001; m15_7fffffffbd0001; m15_7fffffffaa0001; m15_7fffffff9f0001]
  [m15_3fffffffca0001; m15_3fffffff5d0001; m15_3fffffff390001; m15_3fffffff2a0001; m15_3ffffffefa0001; m15_3ffffffed70001; m15_3ffffffeaa0001; m15_3ffffffe920001; m15_3ffffffe790001; m15_3ffffffe320001; m15_7fffffffbf0001; m15_7fffffffba0001; m15_7fffffffa50001; m15_7fffffff7e0001]
  [m15_ffffffffffc0001; m15_fffffffff840001] 65537.
Lemma bfv15_okm : Forall (okmod (N := N15)) (Qm (ppR bfv15) ++ Pm (ppR bfv15)).
Proof. cbn [Qm Pm ppR bfv15 bQ bM bP app]. repeat (apply Forall_cons; [first [exact m15_3fffffffd60001_ok | exact m15_3fffffff6d0001_ok | exact m15_3fffffff550001_ok | exact m15_3fffffff360001_ok | exact m15_3fffffff000001_ok | exact m15_3ffffffef40001_ok | exact m15_3ffffffed30001_ok | exact m15_3ffffffe970001_ok | exact m15_3ffffffe800001_ok | exact m15_3ffffffe410001_ok | exact m15_7fffffffe90001_ok | exact m15_7fffffffbd0001_ok | exact m15_7fffffffaa0001_ok | exact m15_7fffffff9f0001_ok | exact m15_3fffffffca0001_ok | exact m15_3fffffff5d0001_ok | exact m15_3fffffff390001_ok | exact m15_3fffffff2a0001_ok | exact m15_3ffffffefa0001_ok | exact m15_3ffffffed70001_ok | exact m15_3ffffffeaa0001_ok | exact m15_3ffffffe920001_ok | exact m15_3ffffffe790001_ok | exact m15_3ffffffe320001_ok | exact m15_7fffffffbf0001_ok | exact m15_7fffffffba0001_ok | exact m15_7fffffffa50001_ok | exact m15_7fffffff7e0001_ok | exact m15_ffffffffffc0001_ok | exact m15_fffffffff840001_ok]|]); apply Forall_nil. Qed.
(** mkbfv/mkbfv_test.go:77-107 PN14QP439 *)
Definition bfv14 : bparams := BP [m14_1fffffffe30001; m14_1fffffffd10001; m14_1fffffffbf0001; m14_1fffffffb60001; m14_1fffffff920001; m14_3fffffffd60001]
  [m14_1fffffffd80001; m14_1fffffffc50001; m14_1fffffffb90001; m14_1fffffffa50001; m14_1fffffff900001; m14_3fffffffca0001]
  [m14_ffffffffffc0001; m14_fffffffff840001] 65537.
Lemma bfv14_okm : Forall (okmod (N := N14)) (Qm (ppR bfv14) ++ Pm (ppR bfv14)).
Proof. cbn [Qm Pm ppR bfv14 bQ bM bP app]. repeat (apply Forall_cons; [first [exact m14_1fffffffe30001_ok | exact m14_1fffffffd10001_ok | exact m14_1fffffffbf0001_ok | exact m14_1fffffffb60001_ok | exact m14_1fffffff920001_ok | exact m14_3fffffffd60001_ok | exact m14_1fffffffd80001_ok | exact m14_1fffffffc50001_ok | exact m14_1fffffffb90001_ok | exact m14_1fffffffa50001_ok | exact m14_1fffffff900001_ok | exact m14_3fffffffca0001_ok | exact m14_ffffffffffc0001_ok | exact m14_fffffffff840001_ok]|]); apply Forall_nil. Qed.
(** mkckks/mkckks_test.go:51-71 PN15QP880 *)
Definition ckks15 : rparams := RP [m15_fffffffff6a0001; m15_3fffffffd60001; m15_3fffffffca0001; m15_3fffffff6d0001; m15_3fffffff5d0001; m15_3fffffff550001; m15_3fffffff390001; m15_3fffffff360001; m15_3fffffff2a0001; m15_3fffffff000001; m15_3ffffffefa0001; m15_3ffffffef40001; m15_3ffffffed70001; m15_3ffffffed30001]
  [m15_7ffffffffe70001; m15_7ffffffffe10001] 2.
Lemma ckks15_okm : Forall (okmod (N := N15)) (Qm ckks15 ++ Pm ckks15).
Proof. cbn [Qm Pm ckks15 app]. repeat (apply Forall_cons; [first [exact m15_fffffffff6a0001_ok | exact m15_3fffffffd60001_ok | exact m15_3fffffffca0001_ok | exact m15_3fffffff6d0001_ok | exact m15_3fffffff5d0001_ok | exact m15_3fffffff550001_ok | exact m15_3fffffff390001_ok | exact m15_3fffffff360001_ok | exact m15_3fffffff2a0001_ok | exact m15_3fffffff000001_ok | exact m15_3ffffffefa0001_ok | exact m15_3ffffffef40001_ok | exact m15_3ffffffed70001_ok | exact m15_3ffffffed30001_ok | exact m15_7ffffffffe70001_ok | exact m15_7ffffffffe10001_ok]|]); apply Forall_nil. Qed.
(** mkckks/mkckks_test.go:73-89 PN14QP439 *)
Definition ckks14 : rparams := RP [m14_7ffffffffe70001; m14_ffffffff00001; m14_fffffffe40001; m14_fffffffe20001; m14_fffffffbe0001; m14_fffffffa60001]
  [m14_ffffffffffc0001; m14_fffffffff840001] 2.
Lemma ckks14_okm : Forall (okmod (N := N14)) (Qm ckks14 ++ Pm ckks14).
Proof. cbn [Qm Pm ckks14 app]. repeat (apply Forall_cons; [first [exact m14_7ffffffffe70001_ok | exact m14_ffffffff00001_ok | exact m14_fffffffe40001_ok | exact m14_fffffffe20001_ok | exact m14_fffffffbe0001_ok | exact m14_fffffffa60001_ok | exact m14_ffffffffffc0001_ok | exact m14_fffffffff840001_ok]|]); apply Forall_nil. Qed.
(** cnn/cnn_test.go:80-95 PN14QP433 *)
Definition cnn14 : rparams := RP [m14_2000000002b0001; m14_800000020001; m14_800000280001; m14_800000520001; m14_800000770001; m14_800000aa0001; m14_800000ad0001]
  [m14_800000df0001; m14_800000f80001] 2.
Lemma cnn14_okm : Forall (okmod (N := N14)) (Qm cnn14 ++ Pm cnn14).
Proof. cbn [Qm Pm cnn14 app]. repeat (apply Forall_cons; [first [exact m14_2000000002b0001_ok | exact m14_800000020001_ok | exact m14_800000280001_ok | exact m14_800000520001_ok | exact m14_800000770001_ok | exact m14_800000aa0001_ok | exact m14_800000ad0001_ok | exact m14_800000df0001_ok | exact m14_800000f80001_ok]|]); apply Forall_nil. Qed.
