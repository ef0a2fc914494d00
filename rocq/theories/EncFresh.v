(** EncryptMsgNew, seen through the decryption of its result under any family of secrets that gives the party its own secret (C14, C42, C47, C48). *)
From Verif Require Import Base IdSetModel NumTheory Negacyclic Ntt Word BasisExt BasisExtProofs Rows RlweModel SchemeSpec ExtProd ExtProps KeyGenModel Galois KeyGenProofs Instance CtModel CtSpec CtProofs EncDecProofs EncMsgModel PropsEnc.
From Coq Require Import Znumtheory Setoid.
Open Scope Z_scope.

Theorem fresh_phase : forall N pp B B1 (s e u e0 e1 : R N) ss se su se0 se1 id crs c o (pt : poly N) pk,
  wfp N pp -> small_ok pp B -> small_ok pp B1 -> ord1_ok o -> id <> id0 ->
  is_sample pp B1 s ss -> is_sample pp B1 u su -> is_sample pp B e se -> is_sample pp B e0 se0 -> is_sample pp B e1 se1 ->
  mget Z.eq_dec crs 0 = Some c -> crs_ok pp c -> wfplain pp pt ->
  GenPublicKey pp crs (genSecretKeyFromSampler pp id ss) se = Ok pk ->
  exists ct, EncryptMsgNew pp o pt pk su se0 se1 = Ok ct /\ wfct pp (plevel pt) false ct /\ (forall x, In x (keys ct) <-> x = id0 \/ x = id) /\
    bnd (fresh_error e0 u e e1 s) (B * (1 + 2 * Z.of_nat N * B1)) /\
    forall sec j, sec id = s -> (j <= plevel pt)%nat -> eqm (mq (Qi pp j)) (phase pp sec ct j) (add (pvalue pp pt j) (fresh_error e0 u e e1 s)).
Proof.
  intros N pp B B1 s e u e0 e1 ss se su se0 se1 id crs c o pt pk WF SM SM1 O NI S1 S2 S3 S4 S5 GC CO WP GP.
  assert (EA : is_add is_new id = Ok [(id, tt)]) by (unfold is_add; destruct (string_dec id id0) as [->|]; [exfalso; apply NI; reflexivity|reflexivity]).
  pose proof (wf_Qpos _ _ WF) as QP0.
  destruct (C03_new_ciphertext N pp o [(id, tt)] (maxLevel pp) WF O) as (W1 & W2 & W3 & W4); [unfold maxLevel; lia|].
  pose proof (genSecretKey_ok pp WF B1 s id ss SM1 S1) as KV. set (sk := genSecretKeyFromSampler pp id ss) in *.
  destruct (GenPublicKey_ok pp WF B e se crs c sk s SM S3 KV GC CO) as (pk' & P1 & P2 & P3 & P4). assert (pk' = pk) by congruence. subst pk'.
  assert (IDE : pk_id pk = id) by (rewrite P2; reflexivity).
  unfold EncryptMsgNew. rewrite IDE, EA. cbn [rbind].
  set (ct0 := NewCiphertext o [(id, tt)] (maxLevel pp) : ctT N) in *.
  assert (C0 : comp ct0 id0 = Pol (repeat R0 (S (maxLevel pp))) false).
  { destruct W1 as (_ & I0 & _). unfold comp. apply (mget_In_keys seq_dec) in I0. destruct (mget seq_dec ct0 id0) as [q|] eqn:E; [|congruence]. apply (W4 _ _ E). }
  assert (LE : Nat.min (plevel pt) (plevel (comp ct0 id0)) = plevel pt).
  { rewrite C0. unfold plevel at 2. cbn [prows]. rewrite repeat_length. destruct WP as [[? ?] _]. unfold plevel, maxLevel in *. lia. }
  assert (LV : (plevel pt < length (Qm pp))%nat) by (unfold plevel; destruct WP as [[? ?] _]; lia).
  assert (LM : forall j, (j <= plevel pt)%nat -> vi pp (maxLevel pp) (MQ j)) by (intros j Hj; cbn; unfold maxLevel; lia).
  assert (LM' : forall j, (j <= plevel pt)%nat -> (j <= maxLevel pp)%nat) by (intros j Hj; unfold maxLevel; lia).
  assert (OKM : forall j, (j <= plevel pt)%nat -> okmod (N := N) (Qi pp j)) by (intros j Hj; apply (okQ pp WF); lia).
  assert (MW : mwf ct0) by apply W1.
  assert (ENC : forall sec, sec id = s -> exists ct', Encrypt pp pt pk ct0 su se0 se1 = Ok ct' /\ wfct pp (plevel pt) false ct' /\ (forall x, In x (keys ct') <-> x = id0 \/ x = id) /\
     forall j, (j <= plevel pt)%nat -> eqm (mq (Qi pp j)) (phase pp sec ct' j) (add (pvalue pp pt j) (add e0 (add (mul u e) (mul e1 s))))).
  { intros sec SE. destruct (Encrypt_ok pp WF pt pk ct0 su se0 se1 u e0 e1 e s (fun j => raw_val pp (nth 0 c dQP) (MQ j)) sec) as (ct' & E1 & E2 & E3 & E4); rewrite ?IDE, ?LE; trivial.
    - intros x. rewrite W2. cbn. intuition.
    - intros j Hj. apply WP. unfold plevel in Hj. destruct WP as [[? ?] _]. lia.
    - intros j Hj. destruct S2 as [_ S2]. destruct (S2 j (LM' j Hj)) as [A1 A2]. split; [|exact A2]. apply (inr_wrd (Qi pp j)); [apply OKM; exact Hj|exact A1].
    - intros j Hj. destruct S4 as [_ S4]. apply S4. apply LM'. exact Hj.
    - intros j Hj. destruct S5 as [_ S5]. apply S5. apply LM'. exact Hj.
    - intros j Hj. destruct (P4 _ (LM j Hj)) as (A1 & A2 & A3 & A4). split; assumption.
    - intros j Hj. destruct (P4 _ (LM j Hj)) as (A1 & A2 & A3 & A4). split; assumption.
    - rewrite IDE in E3. rewrite LE in E2, E4. rewrite C0 in E2. exists ct'. split; [exact E1|]. split; [exact E2|]. split; [exact E3|]. exact E4. }
  destruct (ENC (fun _ => s) eq_refl) as (ct' & E1 & E2 & E3 & _). exists ct'. split; [exact E1|]. split; [exact E2|]. split; [exact E3|]. split.
  - unfold fresh_error. destruct S1 as [S1 _], S2 as [S2 _], S3 as [S3 _], S4 as [S4 _], S5 as [S5 _].
    apply (bnd_le _ (B + (Z.of_nat N * B1 * B + Z.of_nat N * B * B1))); [|lia]. apply bnd_add; [assumption|]. apply bnd_add; apply bnd_mul; assumption.
  - intros sec j SE Hj. destruct (ENC sec SE) as (ct'' & F1 & _ & _ & F4). assert (ct'' = ct') by congruence. subst ct''. apply F4. exact Hj.
Qed.
