(** C51: KeyGenerators and Encryptors have no memory and never use a sample twice. *)
From Verif Require Import Base IdSetModel KeySetModel NumTheory Negacyclic Ntt Word FloatModel BasisExt BasisExtProofs Rows RlweModel SchemeSpec KeyGenModel Galois CtModel CtSpec CtProofs EncDecProofs KeySwitchModel BfvModel BfvMulModel KsPool KsPoolProofs GenPool GenProofs EncPoolProofs KeyGenProofs Instance PropsEnc.
Open Scope Z_scope.

(** ** specification *)
Section Spec.
  Context {N : nat} (pp : rparams) (crs : crsT N).
  Notation R := (R N).
  (** how many samples of the Gaussian sampler a key needs: beta is the number of gadget digits *)
  Definition reads (op : genop N) : nat :=
    let be := beta pp (maxLevel pp) in
    match op with
    | KSecret _ _ => 0 | KSecretGauss _ => 1 | KPublic _ => 1 | KSwitch _ _ => be | KRelin _ _ => 3 * be | KRotation _ _ => be | KConj _ => be | KBRelin _ _ _ => 5 * be
    end%nat.
  (** the key as a function of the arguments and the samples only (the functions about which C05, C06, C09, C10, C42 are proved) *)
  Definition spec (op : genop N) (smp : nat -> list R) : res (genkey N) :=
    let be := beta pp (maxLevel pp) in
    match op with
    | KSecret id ss => Ok (OSecret (genSecretKeyFromSampler pp id ss))
    | KSecretGauss id => Ok (OSecret (genSecretKeyFromSampler pp id (smp 0%nat)))
    | KPublic sk => k <- GenPublicKey pp crs sk (smp 0%nat) ;; Ok (OPublic k)
    | KSwitch sk _ => Ok (OSwitch (GenSwitchingKey pp (sk_val sk) smp))
    | KRelin sk r => k <- GenRelinearizationKey pp crs sk r smp (fun i => smp (be + i)%nat) (fun i => smp (2 * be + i)%nat) ;; Ok (ORelin k)
    | KRotation x sk => k <- GenRotationKey pp crs x sk smp ;; Ok (ORotation k)
    | KConj sk => k <- GenConjugationKey pp crs sk smp ;; Ok (OConj k)
    | KBRelin b sk r => k <- bGenRelinearizationKey b crs sk r (fun i => smp (2 * i)%nat) (fun i => smp (2 * i + 1)%nat)
                              (fun i => smp (2 * be + i)%nat) (fun i => smp (3 * be + i)%nat) (fun i => smp (4 * be + i)%nat) ;; Ok (OBRelin k)
    end.
  (** a key passed by the caller has the allocated size, with any content; a BFV generator is used with its own parameters *)
  Definition okop (op : genop N) : Prop := match op with KSwitch _ dst => shS pp dst | KBRelin b _ _ => ppQ b = pp | _ => True end.
  (** every state of a key generator: new, after a call, or after a call that panicked and was recovered (its buffers then hold anything) *)
  Inductive ghist (om : nat -> list R) : gst N -> Prop :=
  | gh_new : ghist om (newGst pp)
  | gh_call st op st' k : ghist om st -> okop op -> gcall om pp crs st op = Ok (st', k) -> ghist om st'
  | gh_panic st op st' : ghist om st -> okop op -> gcall om pp crs st op = Panic ->
      length (gQ st') = length (Qm pp) -> length (qpQ (gQP st')) = length (Qm pp) -> length (qpP (gQP st')) = length (Pm pp) -> (gn st <= gn st')%nat -> ghist om st'.
  (** a sequence of calls: the state and the keys *)
  Definition gcalls (om : nat -> list R) (st : gst N) (ops : list (genop N)) : res (gst N * list (genkey N)) :=
    rfold (fun '(st, ks) op => '(st, k) <- gcall om pp crs st op ;; Ok (st, ks ++ [k])) ops (st, nil).
  (** number of samples used by the calls before the i-th *)
  Definition offset (ops : list (genop N)) (i : nat) : nat := fold_right Nat.add 0%nat (map reads (firstn i ops)).
End Spec.

(** ** proofs *)
Section Ext.
  Context {N : nat} (pp : rparams).
  Lemma rbind_ext {A B} (m m' : res A) (f g : A -> res B) : m = m' -> (forall x, f x = g x) -> rbind m f = rbind m' g.
  Proof. intros -> E. destruct m'; cbn; [apply E|reflexivity]. Qed.
  Definition agree (n : nat) (f g : nat -> list (R N)) : Prop := forall i, (i < n)%nat -> f i = g i.
  Lemma GSK_ext sk f g : agree (beta pp (maxLevel pp)) f g -> GenSwitchingKey pp sk f = GenSwitchingKey pp sk g.
  Proof. intros E. apply tab_ext. intros i Hi. rewrite E by exact Hi. reflexivity. Qed.
  Lemma GRK_ext crs (sk r : secretKey N) f f' g g' h h' : agree (beta pp (maxLevel pp)) f f' -> agree (beta pp (maxLevel pp)) g g' -> agree (beta pp (maxLevel pp)) h h' ->
    GenRelinearizationKey pp crs sk r f g h = GenRelinearizationKey pp crs sk r f' g' h'.
  Proof.
    intros E1 E2 E3. unfold GenRelinearizationKey. destruct (_ =? 0)%nat; [reflexivity|]. apply rbind_ext; [reflexivity|]. intros a. apply rbind_ext; [reflexivity|]. intros u.
    apply rbind_ext; [apply rmapM_ext; intros i Hi; apply in_seq in Hi; rewrite E1 by lia; reflexivity|]. intros bk. rewrite (GSK_ext _ _ _ E2), (GSK_ext _ _ _ E3). reflexivity.
  Qed.
  Lemma GTK_ext crs x (sk : secretKey N) f g : agree (beta pp (maxLevel pp)) f g -> GenRotationKey pp crs x sk f = GenRotationKey pp crs x sk g.
  Proof.
    intros E. unfold GenRotationKey. apply rbind_ext; [reflexivity|]. intros c. apply rbind_ext; [reflexivity|]. intros k. rewrite (GSK_ext _ _ _ E). reflexivity.
  Qed.
  Lemma GCK_ext crs (sk : secretKey N) f g : agree (beta pp (maxLevel pp)) f g -> GenConjugationKey pp crs sk f = GenConjugationKey pp crs sk g.
  Proof. intros E. unfold GenConjugationKey. rewrite (GSK_ext _ _ _ E). reflexivity. Qed.
End Ext.
Lemma BRK_ext {N} b crs (sk r : secretKey N) f1 f2 f3 f4 f5 g1 g2 g3 g4 g5 : let be := beta (ppQ b) (maxLevel (ppQ b)) in
  agree be f1 g1 -> agree be f2 g2 -> agree be f3 g3 -> agree be f4 g4 -> agree be f5 g5 ->
  bGenRelinearizationKey b crs sk r f1 f2 f3 f4 f5 = bGenRelinearizationKey b crs sk r g1 g2 g3 g4 g5.
Proof.
  intros be E1 E2 E3 E4 E5. unfold bGenRelinearizationKey.
  assert (GB : forall f g a, agree be f g -> genB b a (sk_val sk) f = genB b a (sk_val sk) g).
  { intros f g a E. unfold genB. apply rmapM_ext. intros i Hi. apply in_seq in Hi. rewrite E by (unfold be; lia). reflexivity. }
  do 3 (apply rbind_ext; [reflexivity|]; intros). apply rbind_ext; [apply GB; exact E1|]. intros. apply rbind_ext; [apply GB; exact E2|]. intros.
  apply rbind_ext.
  - unfold GenBFVSwitchingKey. apply rbind_ext; [apply rmapM_ext; intros i Hi; apply in_seq in Hi; rewrite E3 by (unfold be; lia); reflexivity|]. intros.
    apply rbind_ext; [apply rmapM_ext; intros i Hi; apply in_seq in Hi; rewrite E4 by (unfold be; lia); reflexivity|]. reflexivity.
  - intros [k1 k2]. rewrite (GSK_ext _ _ _ _ E5). reflexivity.
Qed.

Lemma gcall_ok : forall N pp (crs : crsT N) om st (op : genop N), wfp N pp -> gsh pp st -> okop pp op ->
  rsim (gpost pp st (reads pp op)) (gcall om pp crs st op) (spec pp crs op (fun i => om (gn st + i)%nat)).
Proof.
  intros N pp crs om st op WF S OK.
  assert (L : forall A (m : res (gst N * A)) (n n' : res A) c (f : A -> genkey N), rsim (gpost pp st c) m n -> n = n' ->
    rsim (gpost pp st c) ('(st, k) <- m ;; Ok (st, f k)) (k <- n' ;; Ok (f k))).
  { intros A m n n' c f H <-. apply (rsim_bind _ _ _ _ _ _ H). intros [s k] k' (E & SS & NN). cbn [fst snd] in E, SS, NN. subst k'. split; [reflexivity|]. split; assumption. }
  destruct op as [id ss|id|sk|sk dst|sk r|x sk|sk|b sk r]; cbn [gcall spec reads okop] in *.
  - split; [reflexivity|]. split; [exact S|]. cbn [fst]. lia.
  - rewrite (GenSkGauss_ok pp WF om st id S). rewrite Nat.add_0_r. split; [reflexivity|]. split; [exact S|]. cbn [fst gn]. lia.
  - eapply L; [apply GenPkSt_ok; assumption|]. rewrite Nat.add_0_r. reflexivity.
  - pose proof (L _ _ _ _ _ OSwitch (GenSwkSt_ok pp WF om st (sk_val sk) dst S OK) eq_refl) as H. exact H.
  - eapply L; [apply (GenRlkSt_ok pp WF om crs st sk r S)|]. apply GRK_ext; intros i Hi; f_equal; lia.
  - eapply L; [apply GenRotSt_ok; assumption|reflexivity].
  - eapply L; [apply GenConjSt_ok; assumption|reflexivity].
  - subst pp. eapply L; [apply (GenBRlkSt_ok b WF om crs st sk r S)|]. apply BRK_ext; intros i Hi; f_equal; lia.
Qed.
Lemma ghist_sh : forall N pp (crs : crsT N) om st, wfp N pp -> ghist pp crs om st -> gsh pp st.
Proof.
  intros N pp crs om st WF H. induction H as [|st op st' k H IH OK E|st op st' H IH OK E A B C D].
  - apply newGst_sh.
  - pose proof (gcall_ok N pp crs om st op WF IH OK) as S. rewrite E in S. unfold rsim in S. destruct (spec _ _ _ _); [|contradiction]. apply S.
  - split; [exact A|split; assumption].
Qed.

(** A call returns the key that the arguments and the next samples determine, whatever the generator did before (also when a call panicked in between) and
    whatever the destination key held; and it moves the sampler forward by exactly the number of samples such a key needs. *)
Theorem C51_key_generator_has_no_memory : forall N pp (crs : crsT N) om st (op : genop N), wfp N pp -> ghist pp crs om st -> okop pp op ->
  match gcall om pp crs st op, spec pp crs op (fun i => om (gn st + i)%nat) with
  | Ok (st', k), Ok k' => k = k' /\ gn st' = (gn st + reads pp op)%nat /\ ghist pp crs om st'
  | Panic, Panic => True
  | _, _ => False
  end.
Proof.
  intros N pp crs om st op WF H OK. pose proof (gcall_ok N pp crs om st op WF (ghist_sh _ _ _ _ _ WF H) OK) as S. unfold rsim in S.
  destruct (gcall om pp crs st op) as [[st' k]|] eqn:E, (spec pp crs op (fun i => om (gn st + i)%nat)) as [k'|]; try contradiction; trivial.
  destruct S as (A & B & C). split; [exact A|]. split; [exact C|]. exact (gh_call _ _ _ _ _ _ _ H OK E).
Qed.
Print Assumptions C51_key_generator_has_no_memory.

(** A key depends on its own samples only: no later and no earlier sample of the stream has any influence. *)
Theorem C51_key_is_function_of_its_samples : forall N pp (crs : crsT N) (op : genop N) smp smp', okop pp op ->
  (forall i, (i < reads pp op)%nat -> smp i = smp' i) -> spec pp crs op smp = spec pp crs op smp'.
Proof.
  intros N pp crs op smp smp' OK E. destruct op as [id ss|id|sk|sk dst|sk r|x sk|sk|b sk r]; cbn [spec reads okop] in *.
  - reflexivity.
  - rewrite E by lia. reflexivity.
  - rewrite E by lia. reflexivity.
  - rewrite (GSK_ext pp (sk_val sk) smp smp') by exact E. reflexivity.
  - apply rbind_ext; [|reflexivity]. apply GRK_ext; intros i Hi; apply E; lia.
  - apply rbind_ext; [|reflexivity]. apply GTK_ext; exact E.
  - apply rbind_ext; [|reflexivity]. apply GCK_ext; exact E.
  - apply rbind_ext; [|reflexivity]. subst pp. apply BRK_ext; intros i Hi; apply E; lia.
Qed.
Print Assumptions C51_key_is_function_of_its_samples.

(** Any sequence of calls on one generator: the i-th key is the key of the samples from position start + (samples of the earlier calls) on ... *)
Theorem C51_key_sequence : forall N pp (crs : crsT N) om st (ops : list (genop N)) st' ks, wfp N pp -> ghist pp crs om st -> (forall op, In op ops -> okop pp op) ->
  gcalls pp crs om st ops = Ok (st', ks) ->
  length ks = length ops /\ gn st' = (gn st + offset pp ops (length ops))%nat /\
  forall i op, nth_error ops i = Some op -> exists k, nth_error ks i = Some k /\ spec pp crs op (fun j => om (gn st + offset pp ops i + j)%nat) = Ok k.
Proof.
  intros N pp crs om st ops st' ks WF H. revert st' ks. unfold gcalls.
  induction ops as [|op ops IH] using rev_ind; intros st' ks OK E.
  - cbn in E. injection E as <- <-. split; [reflexivity|]. split; [cbn; lia|]. intros [|i] op F; discriminate F.
  - rewrite rfold_app in E. destruct (rfold _ ops (st, nil)) as [[s1 k1]|] eqn:E1; [|discriminate E]. cbn [rbind rfold] in E.
    specialize (IH s1 k1 (fun o Ho => OK o (in_or_app _ _ _ (or_introl Ho))) eq_refl). destruct IH as (A & B & C).
    assert (H1 : ghist pp crs om s1).
    { assert (GG : forall l s (acc : list (genkey N)) s' acc', (forall o, In o l -> okop pp o) -> ghist pp crs om s ->
        rfold (fun '(st, ks) op => '(st, k) <- gcall om pp crs st op ;; Ok (st, ks ++ [k])) l (s, acc) = Ok (s', acc') -> ghist pp crs om s').
      { induction l as [|o l IHl]; intros s acc s' acc' OL HS ES; cbn [rfold] in ES.
        - injection ES as <- _. exact HS.
        - destruct (gcall om pp crs s o) as [[s2 k2]|] eqn:EC; cbn [rbind] in ES; [|discriminate ES].
          apply (IHl s2 _ _ _ (fun x Hx => OL x (or_intror Hx)) (gh_call _ _ _ _ _ _ _ HS (OL o (or_introl eq_refl)) EC) ES). }
      apply (GG ops st nil s1 k1 (fun o Ho => OK o (in_or_app _ _ _ (or_introl Ho))) H E1). }
    pose proof (C51_key_generator_has_no_memory N pp crs om s1 op WF H1 (OK op (in_or_app ops [op] op (or_intror (or_introl eq_refl : In op [op]))))) as M.
    destruct (gcall om pp crs s1 op) as [[s2 k2]|]; cbn [rbind] in E; [|discriminate E]. injection E as <- <-.
    destruct (spec pp crs op (fun i => om (gn s1 + i)%nat)) as [k2'|] eqn:ES; [|contradiction]. destruct M as (-> & M2 & M3).
    assert (OF : forall i, (i <= length ops)%nat -> offset pp (ops ++ [op]) i = offset pp ops i).
    { intros i Hi. unfold offset. rewrite firstn_app. replace (i - length ops)%nat with 0%nat by lia. rewrite app_nil_r. reflexivity. }
    assert (OS : offset pp (ops ++ [op]) (length (ops ++ [op])) = (offset pp ops (length ops) + reads pp op)%nat).
    { unfold offset. rewrite !firstn_all, map_app, fold_right_app. cbn [map fold_right]. rewrite Nat.add_0_r.
      generalize (map (reads pp) ops). intros l. induction l as [|x l IHl]; cbn [fold_right]; lia. }
    split; [rewrite !app_length; cbn; lia|]. split; [rewrite OS; lia|].
    intros i o F. destruct (Nat.lt_ge_cases i (length ops)) as [G|G].
    + rewrite nth_error_app1 in F by exact G. destruct (C i o F) as (k & K1 & K2). exists k. rewrite nth_error_app1 by lia. rewrite OF by lia. split; assumption.
    + rewrite nth_error_app2 in F by exact G. destruct (i - length ops)%nat as [|d] eqn:D; [|destruct d; discriminate F]. cbn in F. injection F as <-.
      exists k2'. rewrite nth_error_app2 by lia. replace (i - length k1)%nat with 0%nat by lia. split; [reflexivity|]. rewrite OF by lia. replace i with (length ops) by lia. rewrite <- ES.
      rewrite B. reflexivity.
Qed.
Print Assumptions C51_key_sequence.
(** ... so the samples of different keys never overlap. *)
Theorem C51_samples_are_used_once : forall N pp (ops : list (genop N)) i i' op op' j j', nth_error ops i = Some op -> nth_error ops i' = Some op' -> (i < i')%nat ->
  (j < reads pp op)%nat -> (offset pp ops i + j < offset pp ops i' + j')%nat.
Proof.
  intros N pp ops i i' op op' j j' E E' HI HJ. assert (M : (offset pp ops i + reads pp op <= offset pp ops i')%nat); [|lia].
  clear E' j' HJ. revert i i' E HI. induction ops as [|o ops IH]; intros i i' E HI; [destruct i; discriminate E|].
  destruct i' as [|i']; [lia|]. destruct i as [|i]; cbn in E.
  - injection E as ->. unfold offset. cbn [firstn map fold_right]. lia.
  - unfold offset in *. cbn [firstn map fold_right]. specialize (IH i i' E ltac:(lia)). lia.
Qed.
Print Assumptions C51_samples_are_used_once.

(** ** Encryptors *)
(** the state of an encryptor: anything its pool of the allocated size can hold, any sampler position *)
Definition enc_state {N} (pp : rparams) (st : est N) : Prop := length (eQ st) = length (Qm pp).
(** a ciphertext to write: components "0" and [id] with n rows each *)
Definition enc_dst {N} (pp : rparams) (id : string) (n : nat) (c : ctT N) : Prop :=
  mwf c /\ (0 < n <= length (Qm pp))%nat /\ (exists p, mget seq_dec c id0 = Some p /\ length (prows p) = n) /\ exists p, mget seq_dec c id = Some p /\ length (prows p) = n.
(** a ciphertext of one party from NewCiphertext / NewCiphertextNTT *)
Definition blank {N} (fl : bool) (id : string) (n : nat) : ctT N := (if fl then NewCiphertextNTT else NewCiphertext) (fun l => l) [(id, tt)] (n - 1)%nat.

Lemma blank_eq : forall N fl id n, id <> id0 -> (0 < n)%nat -> blank (N := N) fl id n = [(id0, Pol (tab n (fun _ => R0)) fl); (id, Pol (tab n (fun _ => R0)) fl)].
Proof.
  intros N fl id n NE HN. assert (E : NewCiphertext (N := N) (fun l => l) [(id, tt)] (n - 1) = [(id0, Pol (tab n (fun _ => R0)) false); (id, Pol (tab n (fun _ => R0)) false)]).
  { unfold NewCiphertext, keys. cbn [map fst fold_left]. unfold cset, zeroP. cbn [mset]. destruct (seq_dec id id0); [congruence|]. replace (S (n - 1)) with n by lia. reflexivity. }
  unfold blank. destruct fl; [unfold NewCiphertextNTT|]; rewrite E; reflexivity.
Qed.

(** Encrypt succeeds whatever the pool and the destination held, draws three samples, writes into the destination's components "0" and [id] exactly what it
    would write into a blank ciphertext with the same samples, and touches nothing else. *)
Theorem C51_encryptor_has_no_memory : forall N pp om st (pt : poly N) pk (c : ctT N) n,
  let id := pk_id pk in let fl := pntt (comp c id0) in
  enc_state pp st -> id <> id0 -> enc_dst pp id n c ->
  exists st' c' cF, EncryptSt om pp st pt pk c = Ok (st', c') /\ enc_state pp st' /\ en st' = (en st + 3)%nat /\
    Encrypt pp pt pk (blank fl id n) (om (en st)) (om (if fl then en st + 2 else en st + 1)%nat) (om (if fl then en st + 1 else en st + 2)%nat) = Ok cF /\
    mget seq_dec c' id0 = mget seq_dec cF id0 /\ mget seq_dec c' id = mget seq_dec cF id /\ (forall x, x <> id0 -> x <> id -> mget seq_dec c' x = mget seq_dec c x) /\
    mwf c' /\ mwf cF /\ (forall x, In x (keys cF) <-> x = id0 \/ x = id).
Proof.
  intros N pp om st pt pk c n id fl ST NE (W & HN & (p0 & M0 & L0) & (p1 & M1 & L1)).
  assert (C0 : comp c id0 = p0) by (unfold comp; rewrite M0; reflexivity). assert (C1 : comp c id = p1) by (unfold comp; rewrite M1; reflexivity).
  assert (I0 : In id0 (keys c)) by (apply (mget_In_keys seq_dec); congruence). assert (I1 : In id (keys c)) by (apply (mget_In_keys seq_dec); congruence).
  destruct (EncryptSt_ok pp om st pt pk c n NE W I0 I1) as (st' & c' & E & EN & EL & W' & G); [rewrite C0; exact L0|fold id; rewrite C1; exact L1|lia|unfold enc_state in ST; lia|].
  pose proof (blank_eq N fl id n NE ltac:(lia)) as BE.
  destruct (Encrypt_eq pp pt pk (blank fl id n) (om (en st)) (om (if fl then en st + 2 else en st + 1)%nat) (om (if fl then en st + 1 else en st + 2)%nat) NE) as (cF & EF & WF & GF).
  { rewrite BE. left. reflexivity. } { rewrite BE. right. left. reflexivity. }
  { rewrite BE. unfold mwf. cbn. constructor; [|constructor; [intros []|constructor]]. intros [F|[]]. congruence. }
  assert (CB : comp (blank fl id n) id0 = Pol (tab n (fun _ => R0)) fl) by (rewrite BE; reflexivity).
  rewrite CB in GF. cbn [pntt] in GF. assert (PL : plevel (Pol (tab n (fun _ => R0 : R N)) fl) = plevel (comp c id0)) by (unfold plevel; cbn [prows]; rewrite tab_length, C0, L0; reflexivity).
  rewrite PL in GF. fold fl id in G. fold id in GF. rewrite !(Nat.add_comm (en st)) in GF. cbn [Nat.add] in GF.
  exists st', c', cF. split; [exact E|]. split; [unfold enc_state in *; congruence|]. split; [exact EN|]. split; [exact EF|].
  split; [rewrite G, GF; destruct (string_dec id0 id0); [destruct fl; reflexivity|congruence]|].
  split; [rewrite G, GF; destruct (string_dec id id0); [congruence|]; destruct (string_dec id id); [destruct fl; reflexivity|congruence]|].
  split; [intros x X0 X1; rewrite G; destruct (string_dec x id0), (string_dec x id); congruence|].
  split; [exact W'|]. split; [exact WF|].
  intros x. rewrite <- (mget_In_keys seq_dec), GF, BE. cbn [mget]. destruct (string_dec x id0), (string_dec x id), (seq_dec x id0), (seq_dec x id); split; try congruence; intuition congruence.
Qed.
Print Assumptions C51_encryptor_has_no_memory.

(** The consequence: reusing a ciphertext that has other parties leaves their old components in it, and they count when it is decrypted. *)
Theorem C51_reused_ciphertext_phase : forall N pp om st (pt : poly N) pk (c : ctT N) n (sec : string -> R N) j,
  let id := pk_id pk in let fl := pntt (comp c id0) in
  enc_state pp st -> id <> id0 -> enc_dst pp id n c ->
  exists st' c' cF, EncryptSt om pp st pt pk c = Ok (st', c') /\
    Encrypt pp pt pk (blank fl id n) (om (en st)) (om (if fl then en st + 2 else en st + 1)%nat) (om (if fl then en st + 1 else en st + 2)%nat) = Ok cF /\
    phase pp sec c' j = add (phase pp sec cF j) (Lsum (filter (fun x => if string_dec x id then false else true) (parties c)) (fun x => mul (pvalue pp (comp c x) j) (sec x))).
Proof.
  intros N pp om st pt pk c n sec j id fl ST NE D.
  destruct (C51_encryptor_has_no_memory N pp om st pt pk c n ST NE D) as (st' & c' & cF & E & _ & _ & EF & G0 & G1 & GO & W' & WF & KF). fold id in G1, GO, KF.
  exists st', c', cF. split; [exact E|]. split; [exact EF|].
  set (l := filter (fun x => if string_dec x id then false else true) (parties c)).
  destruct D as (W & HN & (p0 & M0 & L0) & (p1 & M1 & L1)). fold id in M1.
  assert (IL : forall x, In x l <-> x <> id0 /\ x <> id /\ In x (keys c)).
  { intros x. unfold l. rewrite filter_In, in_parties. destruct (string_dec x id); intuition congruence. }
  assert (KC : forall x, In x (keys c') <-> In x (keys c)).
  { intros x. rewrite <- !(mget_In_keys seq_dec). destruct (string_dec x id0) as [->|X0].
    - rewrite G0, M0. split; [intros _; discriminate|]. intros _. apply (mget_In_keys seq_dec). apply KF. left. reflexivity.
    - destruct (string_dec x id) as [->|X1]; [|rewrite GO by assumption; reflexivity]. rewrite G1, M1. split; [intros _; discriminate|]. intros _. apply (mget_In_keys seq_dec). apply KF. right. reflexivity. }
  rewrite (phase_list pp sec c' j (id :: l)); [rewrite (phase_list pp sec cF j [id])|..].
  - cbn [Lsum]. assert (CE0 : comp c' id0 = comp cF id0) by (unfold comp; rewrite G0; reflexivity). assert (CE1 : comp c' id = comp cF id) by (unfold comp; rewrite G1; reflexivity).
    rewrite CE0, CE1. rewrite (Lsum_ext l (fun x => mul (pvalue pp (comp c' x) j) (sec x)) (fun x => mul (pvalue pp (comp c x) j) (sec x))).
    + apply R_ext. intros i Hi. rewrite !co_add, co_R0. ring.
    + intros x Hx. apply IL in Hx. unfold comp. rewrite GO by tauto. reflexivity.
  - exact WF.
  - constructor; [intros []|constructor].
  - intros x. rewrite KF. cbn. intuition congruence.
  - exact W'.
  - constructor; [|apply NoDup_filter, parties_nodup; exact W]. intros F. apply IL in F. tauto.
  - intros x. cbn [In]. rewrite IL, KC. destruct (string_dec x id) as [->|X]; [|intuition congruence].
    split; [intros _; split; [exact NE|apply (mget_In_keys seq_dec); congruence]|intros _; left; reflexivity].
Qed.
Print Assumptions C51_reused_ciphertext_phase.

(** every state of an encryptor: new, after an Encrypt, or after an Encrypt that panicked and was recovered (its pool then holds anything) *)
Inductive ehist {N} (pp : rparams) (om : nat -> list (R N)) : est N -> Prop :=
| eh_new : ehist pp om (newEst pp)
| eh_call st pt pk c n st' c' : ehist pp om st -> pk_id pk <> id0 -> enc_dst pp (pk_id pk) n c -> EncryptSt om pp st pt pk c = Ok (st', c') -> ehist pp om st'
| eh_panic st pt pk c st' : ehist pp om st -> EncryptSt om pp st pt pk c = Panic -> length (eQ st') = length (Qm pp) -> ehist pp om st'.
(** all of them meet the hypothesis of the theorems above *)
Theorem C51_encryptor_states : forall N pp (om : nat -> list (R N)) st, ehist pp om st -> enc_state pp st.
Proof.
  intros N pp om st H. induction H as [|st pt pk c n st' c' H IH NE D E|st pt pk c st' H IH E L].
  - unfold enc_state, newEst. cbn [eQ]. apply tab_length.
  - destruct (C51_encryptor_has_no_memory N pp om st pt pk c n IH NE D) as (st2 & c2 & cF & E2 & S2 & _). assert (X : st2 = st') by congruence. rewrite <- X. exact S2.
  - exact L.
Qed.
Print Assumptions C51_encryptor_states.

Lemma relin_call : forall N pp (crs : crsT N) om st n sk r rlk, wfp N pp -> ghist pp crs om st -> gn st = n ->
  GenRelinearizationKey pp crs sk r (fun i => om (n + i)%nat) (fun i => om (n + (beta pp (maxLevel pp) + i))%nat) (fun i => om (n + (2 * beta pp (maxLevel pp) + i))%nat) = Ok rlk ->
  exists st', gcall om pp crs st (KRelin sk r) = Ok (st', ORelin rlk).
Proof.
  intros N pp crs om st n sk r rlk WF H <- E. pose proof (gcall_ok N pp crs om st (KRelin sk r) WF (ghist_sh _ _ _ _ _ WF H) Logic.I) as S.
  unfold spec in S. rewrite E in S. unfold rbind at 1 in S. destruct (gpost_Ok pp _ _ _ _ S) as (st' & E' & _). exists st'. exact E'.
Qed.

(** ** concrete cases *)
Definition exg_om (n : nat) : list (R 8) := rows_of ex_pp (ex_e n).
(** a generator that made a key, then failed on a rotation index without common reference string; its buffers hold junk, the sampler stands at 7 *)
Definition exg_st : gst 8 := GS 7 (tab 3 (fun _ => ex_s)) (QP (tab 3 (fun _ => ex_s)) (tab 2 (fun _ => ex_s))).
Definition exg_op : genop 8 := KRelin (ex_sk "alice") (ex_sk "alice").
Example C51_nonvacuous : ghist ex_pp ex_crs exg_om exg_st /\ okop ex_pp exg_op /\ reads ex_pp exg_op = 6%nat /\
  okop ex_pp (KSwitch (ex_sk "alice") (tab 2 (fun _ => gQP exg_st))) /\ exists st' k, gcall exg_om ex_pp ex_crs exg_st exg_op = Ok (st', ORelin k) /\ rlk_id k = "alice"%string.
Proof.
  assert (H : ghist ex_pp ex_crs exg_om exg_st).
  { eapply (gh_panic ex_pp ex_crs exg_om _ (KRotation 77 (ex_sk "alice")) exg_st).
    - eapply (gh_call ex_pp ex_crs exg_om (newGst ex_pp) (KSecretGauss "alice")); [apply gh_new|exact Logic.I|].
      cbn [gcall]. rewrite (GenSkGauss_ok ex_pp ex_wf exg_om (newGst ex_pp) "alice" (newGst_sh ex_pp)). reflexivity.
    - exact Logic.I.
    - assert (X : crs_get ex_crs 77 = Panic) by reflexivity. cbn [gcall]. unfold GenRotSt. rewrite X. reflexivity.
    - reflexivity.
    - reflexivity.
    - reflexivity.
    - cbn [exg_st gn newGst]. lia. }
  assert (BE : beta ex_pp (maxLevel ex_pp) = 2%nat) by (vm_compute; reflexivity).
  split; [exact H|]. split; [exact Logic.I|]. split; [unfold reads, exg_op; rewrite BE; reflexivity|].
  split. { split; [rewrite tab_length, BE; reflexivity|]. intros d [<-|[<-|[]]]; split; reflexivity. }
  destruct (GenRelinearizationKey_ok ex_pp ex_wf 3 (fun i => ex_e (7 + i)%nat) (fun i => ex_e (7 + (beta ex_pp (maxLevel ex_pp) + i))%nat) (fun i => ex_e (7 + (2 * beta ex_pp (maxLevel ex_pp) + i))%nat)
    (fun i => exg_om (7 + i)%nat) (fun i => exg_om (7 + (beta ex_pp (maxLevel ex_pp) + i))%nat) (fun i => exg_om (7 + (2 * beta ex_pp (maxLevel ex_pp) + i))%nat) ex_crs
    (crs_entry ex_pp (ex_u 0)) (crs_entry ex_pp (ex_u (-1))) (ex_sk "alice") (ex_sk "alice") ex_s ex_s) as (rlk & E & EI & _).
  - exact ex_small.
  - intros k _. split; [apply ex_e_sample|]. split; apply ex_e_sample.
  - apply ex_sk_val.
  - apply ex_sk_val.
  - reflexivity.
  - reflexivity.
  - apply ex_crs_entry; lia.
  - apply ex_crs_entry; lia.
  - destruct (relin_call 8 ex_pp ex_crs exg_om exg_st 7 (ex_sk "alice") (ex_sk "alice") rlk ex_wf H eq_refl E) as (st' & E'). exists st', rlk. split; [exact E'|exact EI].
Qed.

(** a ciphertext of alice and bob is reused for a message of alice *)
Definition exg_pk : publicKey 8 := PK "alice" (gQP exg_st) (gQP exg_st).
Definition exg_one : R 8 := ex_poly [1; 0; 0; 0; 0; 0; 0; 0].
Definition exg_ct : ctT 8 := [(id0, Pol (tab 2 (fun _ => ex_s)) false); ("alice"%string, Pol (tab 2 (fun _ => ex_s)) false); ("bob"%string, Pol (tab 2 (fun _ => exg_one)) false)].
Example C51_enc_nonvacuous : enc_state ex_pp (ES 5 (tab 3 (fun _ => ex_s))) /\ pk_id exg_pk <> id0 /\ enc_dst ex_pp (pk_id exg_pk) 2 exg_ct.
Proof.
  split; [reflexivity|]. split; [discriminate|]. split; [unfold mwf; cbn; repeat (constructor; [cbn; intuition discriminate|]); constructor|].
  split; [cbn; lia|]. split; eexists; split; reflexivity.
Qed.
(** The expectation that Encrypt replaces whatever the ciphertext held is false: the result decrypts to something else than an encryption into a blank one with
    the same samples, by bob's leftover component. *)
Theorem C51_reused_ciphertext_refuted : exists (c : ctT 8) st st' c' cF (sec : string -> R 8), wfp 8 ex_pp /\ enc_state ex_pp st /\ enc_dst ex_pp "alice" 2 c /\
  EncryptSt exg_om ex_pp st (ex_pt false) exg_pk c = Ok (st', c') /\
  Encrypt ex_pp (ex_pt false) exg_pk (blank false "alice" 2) (exg_om (en st)) (exg_om (en st + 1)%nat) (exg_om (en st + 2)%nat) = Ok cF /\
  ~ eqm (mq (Qi ex_pp 0)) (phase ex_pp sec c' 0) (phase ex_pp sec cF 0).
Proof.
  destruct C51_enc_nonvacuous as (A & B & C).
  destruct (C51_reused_ciphertext_phase 8 ex_pp exg_om (ES 5 (tab 3 (fun _ => ex_s))) (ex_pt false) exg_pk exg_ct 2 (fun _ => exg_one) 0 A B C) as (st' & c' & cF & E & EF & P).
  exists exg_ct, (ES 5 (tab 3 (fun _ => ex_s))), st', c', cF, (fun _ => exg_one). split; [apply ex_wf|]. split; [exact A|]. split; [exact C|]. split; [exact E|]. split; [exact EF|].
  rewrite P. set (X := phase ex_pp _ cF 0). clearbody X. clear.
  assert (Y : co (Lsum (filter (fun x => if string_dec x (pk_id exg_pk) then false else true) (parties exg_ct)) (fun x => mul (pvalue ex_pp (comp exg_ct x) 0) exg_one)) 0 = 1) by (vm_compute; reflexivity).
  intros F. rewrite eqm_co in F. specialize (F 0%nat ltac:(lia)). rewrite co_add, Y in F. change (mq (Qi ex_pp 0)) with 97 in F.
  replace (co X 0 + 1 - co X 0) with 1 in F by ring. destruct F as [k F]. lia.
Qed.
Print Assumptions C51_reused_ciphertext_refuted.
