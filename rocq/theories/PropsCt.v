(** C03, continued: NewCiphertextNTT and Copy. *)
From Verif Require Import Base IdSetModel NumTheory Negacyclic Ntt Word BasisExt BasisExtProofs Rows RlweModel KeyGenModel SchemeSpec CtModel CtSpec CtProofs EncDecProofs HeapModel HeapProofs EvalPoolProofs Instance PropsEnc.
Open Scope Z_scope.

(** NewCiphertextNTT is the same with every component marked as being in the NTT domain. *)
Theorem C03_new_ciphertext_ntt : forall N pp o (ids : idset) level, wfp N pp -> ord1_ok o -> (level < length (Qm pp))%nat ->
  let ct : ctT N := NewCiphertextNTT o ids level in
  wfct pp level true ct /\ (forall x, In x (keys ct) <-> x = id0 \/ In x (keys ids)) /\ ctLevel ct = Ok level /\
  forall x p, mget seq_dec ct x = Some p -> p = Pol (repeat R0 (S level)) true.
Proof.
  intros N pp o ids level WF O HL ct. destruct (C03_new_ciphertext N pp o ids level WF O HL) as (W & K & _ & P).
  set (c0 := NewCiphertext o ids level : ctT N) in *.
  assert (MG : forall x, mget seq_dec ct x = option_map (fun p => Pol (prows p) true) (mget seq_dec c0 x)).
  { intros x. unfold ct, NewCiphertextNTT. fold c0. clearbody c0. clear. induction c0 as [|[y p] t IH]; cbn; [reflexivity|]. destruct (seq_dec x y); [reflexivity|exact (IH)]. }
  assert (KE : keys ct = keys c0).
  { unfold ct, NewCiphertextNTT. fold c0. unfold keys. rewrite map_map. apply map_ext. intros [? ?]. reflexivity. }
  assert (P' : forall x p, mget seq_dec ct x = Some p -> p = Pol (repeat R0 (S level)) true).
  { intros x p. rewrite MG. destruct (mget seq_dec c0 x) as [p'|] eqn:E; [|discriminate]. cbn. intros [= <-]. rewrite (P x p' E). reflexivity. }
  assert (W' : wfct pp level true ct).
  { destruct W as (A & B & C). split; [unfold mwf; rewrite KE; exact A|]. split; [rewrite KE; exact B|]. intros x p M. rewrite MG in M. destruct (mget seq_dec c0 x) as [p'|] eqn:E; [|discriminate M].
    cbn in M. injection M as <-. destruct (C x p' E) as (C1 & C2 & C3). split; [exact C1|]. split; [reflexivity|exact C3]. }
  split; [exact W'|]. split; [intros x; rewrite KE; apply K|]. split; [apply (wfct_level _ _ _ _ W')|exact P'].
Qed.
Print Assumptions C03_new_ciphertext_ntt.

(** Copy on the heap: the components of the source are written over the components of the same identities in the destination (as many rows as both have), no
    other object changes; a source with a component the destination lacks is a panic. *)
Theorem C03_copy : forall N o (h : heap N) (dst src : hct), ord1_ok o -> mwf dst -> mwf src -> hok h dst -> hok h src -> (forall r, In r (map snd dst) -> ~ In r (map snd src)) ->
  (incl (keys src) (keys dst) -> exists h', hCopy o h dst src = Ok h' /\ length h' = length h /\ view h' src = view h src /\
    (forall r, (forall id, In id (keys src) -> mget seq_dec dst id <> Some r) -> nth r h' dpoly = nth r h dpoly) /\
    forall id p d, mget seq_dec (view h src) id = Some p -> mget seq_dec (view h dst) id = Some d -> exists d', mget seq_dec (view h' dst) id = Some d' /\
      pntt d' = pntt p /\ length (prows d') = length (prows d) /\
      forall j, (j < length (prows d))%nat -> row (prows d') j = if (j <? length (prows p))%nat then row (prows p) j else row (prows d) j) /\
  (~ incl (keys src) (keys dst) -> hCopy o h dst src = Panic).
Proof.
  intros N o h dst src O WD WS HD HS DJ.
  assert (NDK : forall id id' r, mget seq_dec dst id = Some r -> mget seq_dec dst id' = Some r -> id = id').
  { intros id id' r A B. destruct HD as [ND _]. revert ND A B. clear. induction dst as [|[k v] t IH]; intros ND A B; [discriminate A|]. cbn in ND, A, B. inversion ND as [|? ? NI ND']; subst.
    destruct (seq_dec id k) as [->|], (seq_dec id' k) as [->|]; [reflexivity| | |apply IH; assumption].
    - injection A as ->. exfalso. apply NI. apply (mget_ref t id'). exact B.
    - injection B as ->. exfalso. apply NI. apply (mget_ref t id). exact A. }
  assert (PC : forall d p : poly N, length (prows (polyCopy d p)) = length (prows d) /\ forall j, (j < length (prows d))%nat -> row (prows (polyCopy d p)) j = if (j <? length (prows p))%nat then row (prows p) j else row (prows d) j).
  { intros d p. unfold polyCopy. cbn [prows]. set (n := Nat.min (length (prows d)) (length (prows p))). assert (LF : length (firstn n (prows p)) = n) by (rewrite firstn_length; lia). split; [rewrite app_length, LF, skipn_length; lia|].
    intros j Hj. unfold row. destruct (Nat.ltb_spec j (length (prows p))) as [L|L].
    - rewrite app_nth1 by lia. rewrite <- (firstn_skipn n (prows p)) at 2. rewrite app_nth1 by lia. reflexivity.
    - rewrite app_nth2 by lia. rewrite LF. rewrite <- (firstn_skipn n (prows d)) at 2. rewrite (app_nth2 (firstn n (prows d))) by (rewrite firstn_length; lia).
      rewrite firstn_length. replace (Nat.min n (length (prows d))) with n by lia. reflexivity. }
  set (f := fun (h : heap N) id => d <- hread h dst id ;; p <- hread h src id ;; hwrite h dst id (polyCopy d p)).
  assert (RD : forall (hh : heap N) (c : hct) id r, length hh = length h -> hok h c -> mget seq_dec c id = Some r -> hread hh c id = Ok (nth r hh dpoly)).
  { intros hh c id r L K M. unfold hread, href. rewrite M. cbn [rbind]. apply hload_ok. rewrite L. apply K. apply (mget_ref c id). exact M. }
  assert (LOOP : forall l, NoDup l -> incl l (keys src) -> incl l (keys dst) -> exists h', rfold f l h = Ok h' /\ length h' = length h /\
    (forall r, (forall id, In id l -> mget seq_dec dst id <> Some r) -> nth r h' dpoly = nth r h dpoly) /\
    forall id rs rd, In id l -> mget seq_dec src id = Some rs -> mget seq_dec dst id = Some rd -> nth rd h' dpoly = polyCopy (nth rd h dpoly) (nth rs h dpoly)).
  { intros l. induction l as [|id l IH] using rev_ind; intros ND I1 I2.
    - exists h. split; [reflexivity|]. split; [reflexivity|]. split; [reflexivity|]. intros ? ? ? [].
    - destruct (NoDup_remove _ _ _ ND) as [ND1 NI]. rewrite app_nil_r in ND1, NI.
      destruct (IH ND1 (fun x Hx => I1 x (in_or_app _ _ _ (or_introl Hx))) (fun x Hx => I2 x (in_or_app _ _ _ (or_introl Hx)))) as (h1 & E & L1 & A & B).
      assert (K1 : In id (keys src)) by (apply I1, in_or_app; right; left; reflexivity). assert (K2 : In id (keys dst)) by (apply I2, in_or_app; right; left; reflexivity).
      apply (mget_In_keys seq_dec) in K1, K2. destruct (mget seq_dec src id) as [rs|] eqn:ES; [|congruence]. destruct (mget seq_dec dst id) as [rd|] eqn:ED; [|congruence].
      assert (LD : (rd < length h1)%nat) by (rewrite L1; apply HD; apply (mget_ref dst id); exact ED).
      exists (upd h1 rd (polyCopy (nth rd h1 dpoly) (nth rs h1 dpoly))). rewrite rfold_app, E. cbn [rbind rfold]. unfold f.
      rewrite (RD h1 dst id rd L1 HD ED), (RD h1 src id rs L1 HS ES). cbn [rbind]. unfold hwrite, href. rewrite ED. cbn [rbind]. rewrite hload_ok by exact LD. cbn [rbind].
      split; [reflexivity|]. split; [rewrite upd_len; exact L1|].
      assert (NRD : nth rd h1 dpoly = nth rd h dpoly) by (apply A; intros id' I' E'; rewrite (NDK id' id rd E' ED) in I'; contradiction).
      assert (SRC : forall x r, mget seq_dec src x = Some r -> nth r h1 dpoly = nth r h dpoly).
      { intros x r M. apply A. intros id' _ E'. apply (DJ r); [apply (mget_ref dst id'); exact E'|apply (mget_ref src x); exact M]. }
      split.
      + intros r HR. rewrite upd_nth_neq by (intros ->; apply (HR id); [apply in_or_app; right; left; reflexivity|exact ED]). apply A. intros id' I'. apply HR. apply in_or_app. left. exact I'.
      + intros x rs' rd' IX MS MD. apply in_app_or in IX. destruct IX as [IX|[<-|[]]].
        * rewrite upd_nth_neq by (intros ->; rewrite (NDK x id rd MD ED) in IX; contradiction). apply (B x); assumption.
        * rewrite ED in MD. rewrite ES in MS. injection MD as <-. injection MS as <-. rewrite upd_nth_eq by exact LD. rewrite NRD, (SRC id rs ES). reflexivity. }
  assert (NDS : NoDup (o (keys src))) by (apply (Permutation_NoDup (Permutation_sym (O (keys src)))); exact WS).
  assert (INO : forall x, In x (o (keys src)) <-> In x (keys src)) by (intros x; split; apply Permutation_in; [apply O|apply Permutation_sym, O]).
  split.
  - intros IC. destruct (LOOP (o (keys src)) NDS) as (h' & E & L & A & B); [intros x Hx; apply INO; exact Hx|intros x Hx; apply IC, INO; exact Hx|].
    exists h'. split; [exact E|]. split; [exact L|]. split.
    { unfold view. apply map_ext_in. intros [id r] I. f_equal. apply A. intros id' _ M. apply (DJ r); [apply (mget_ref dst id'); exact M|]. apply (in_map snd) in I. exact I. }
    split; [intros r HR; apply A; intros id I; apply HR, INO, I|].
    intros id p d. rewrite !mget_view. destruct (mget seq_dec src id) as [rs|] eqn:ES; [|discriminate]. destruct (mget seq_dec dst id) as [rd|] eqn:ED; [|discriminate]. cbn [option_map]. intros [= <-] [= <-].
    exists (nth rd h' dpoly). split; [reflexivity|]. rewrite (B id rs rd); [|apply INO, (mget_In_keys seq_dec); congruence|exact ES|exact ED].
    destruct (PC (nth rd h dpoly) (nth rs h dpoly)) as [P1 P2]. split; [reflexivity|]. split; [exact P1|exact P2].
  - intros NI. unfold hCopy. fold f.
    assert (X : exists x, In x (o (keys src)) /\ ~ In x (keys dst)).
    { destruct (Forall_dec (fun x => In x (keys dst)) (fun x => in_dec string_dec x (keys dst)) (keys src)) as [F|F].
      - exfalso. apply NI. intros x Hx. exact (proj1 (Forall_forall _ _) F x Hx).
      - apply neg_Forall_Exists_neg in F; [|intros x; apply in_dec; apply string_dec]. apply Exists_exists in F. destruct F as (x & A & B). exists x. split; [apply INO; exact A|exact B]. }
    destruct X as (x & A & B). apply (rfold_panics f (o (keys src)) x A). intros hh. unfold f, hread, href.
    assert (M : mget seq_dec dst x = None) by (apply (mget_None seq_dec); exact B). rewrite M. reflexivity.
Qed.
Print Assumptions C03_copy.

(** a destination with three components, one row more than the source, and the source's two components *)
Definition exc_h : heap 8 := [Pol [ex_s; ex_s] false; Pol [ex_s; ex_s] false; Pol [ex_e 1; ex_e 2] true; Pol [ex_e 1] true; Pol [ex_e 2] true].
Definition exc_dst : hct := [(id0, 0%nat); ("alice"%string, 1%nat); ("bob"%string, 2%nat)].
Definition exc_src : hct := [("alice"%string, 4%nat); (id0, 3%nat)].
Example C03_copy_nonvacuous : mwf exc_dst /\ mwf exc_src /\ hok exc_h exc_dst /\ hok exc_h exc_src /\ (forall r, In r (map snd exc_dst) -> ~ In r (map snd exc_src)) /\
  incl (keys exc_src) (keys exc_dst) /\ ~ incl (keys exc_dst) (keys exc_src).
Proof.
  assert (ND : forall (l : list nat), l = [0; 1; 2]%nat \/ l = [4; 3]%nat -> NoDup l) by (intros l [->| ->]; repeat (constructor; [cbn; lia|]); constructor).
  split; [repeat (constructor; [cbn; intuition discriminate|]); constructor|]. split; [repeat (constructor; [cbn; intuition discriminate|]); constructor|].
  split; [split; [apply ND; left; reflexivity|cbn; lia]|]. split; [split; [apply ND; right; reflexivity|cbn; lia]|]. split; [cbn; lia|].
  split; [intros x; cbn; tauto|]. intros H. specialize (H "bob"%string ltac:(cbn; tauto)). cbn in H. intuition discriminate.
Qed.
