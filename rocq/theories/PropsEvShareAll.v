(** C70: mkckks Evaluators all of whose operations are called by several goroutines. *)
From Flocq Require Import Core BinarySingleNaN.
From Verif Require Import Base IdSetModel IdSetProofs KeySetModel NumTheory Negacyclic Ntt Word FloatModel CkksFloat BasisExt BasisExtProofs Rows RlweModel SchemeSpec ExtProd ExtProps KeyGenModel Galois KeyGenProofs Instance CtModel CtSpec CtProofs EncDecProofs KeySwitchModel Digits KsLoops RotProofs MulProofs CkksModel CkksProofs BfvModel KsPool KsPoolProofs EvalPool EvalPoolProofs CkksRescale ShareModel PropsShare EvShare EvShareProofs EvShareAll EvShareAllProofs EvShareAllSafe PropsEnc PropsKeySwitch PropsCkks PropsRescale PropsConst PropsMulRelin PropsCkksEx PropsCkksHoist PropsEvShare.
Open Scope Z_scope.

(** ** Specification *)
(** a new Evaluator and a new RelinearizationKeySet with the keys [rs]: NewEvaluator, then AddRelinearizationKey for each of them (keys.go:165-182 allocates a HoistPool buffer per key) *)
Definition fresh_with {N} (pp : rparams) (rs : rlkset N) : world N :=
  let buffers := map (fun '(id, _) => (id, newSwk pp)) rs in W (NewKeySwitcher pp) (NewEvaluator pp) rs buffers buffers.
(** what a call returns when it is the only one that ever uses its Evaluator and key set ([call]: EvalPool.v, the sequential model; C18-C31 say what that is) *)
Definition alone {N} (pp : rparams) (crs : crsT N) (pscale : f64) (rs : rlkset N) (o : nat -> order) (e : mcall N) : res (ckct N) :=
  match call pp crs pscale o (fresh_with pp rs) (opOf e) with Ok (_, Some c) => Ok c | _ => Panic end.
(** goroutines that are about to make calls on Evaluators whose buffers have the sizes they were allocated with (C33: calls leave them so);
    object k is Evaluator k together with the RelinearizationKeySet that is used with it *)
Definition mready {N} (pp : rparams) (crs : crsT N) (pscale : f64) (ts : list (nat * proc (world N) (ckct N))) (xs : list (world N)) : Prop :=
  (forall j t, nth_error ts j = Some t -> exists k o e, t = (k, mcode pp crs pscale o e) /\ (forall n, order_ok (o n)) /\ goodop pp (opOf e)) /\ forall k w, nth_error xs k = Some w -> wok pp w.

(** ** A call that runs undisturbed, with an invariant for each object *)
Section Gen.
  Context {T A : Type} (I : nat -> T -> Prop).
  Lemma psched_safe_k sch : forall (ts : list (nat * proc T A)) xs, (forall j k p, nth_error ts j = Some (k, p) -> psafe (I k) (fun _ => True) p) -> (forall k s, nth_error xs k = Some s -> I k s) ->
    forall k s, nth_error (snd (psched sch ts xs)) k = Some s -> I k s.
  Proof.
    induction sch as [|i sch IH]; intros ts xs HT HX; cbn [psched]; [exact HX|]. destruct (nth_error ts i) as [[k p]|] eqn:Ei; [|apply IH; assumption]. destruct (nth_error xs k) as [s|] eqn:Ek; [|apply IH; assumption].
    destruct (pexec p s) as [p' s'] eqn:EX.
    assert (G : psafe (I k) (fun _ => True) p' /\ I k s').
    { pose proof (HT _ _ _ Ei) as HP. pose proof (HX _ _ Ek) as HS. destruct p as [a| |f]; cbn [pexec] in EX; [injection EX as <- <-; split; assumption..|]. cbn [psafe] in HP. specialize (HP s HS). destruct (f s) as [s2 p2]. injection EX as <- <-. tauto. }
    apply IH.
    - intros j kj pj. rewrite nth_set. destruct (Nat.eqb_spec i j) as [->|]; [rewrite Ei; intros E; injection E as <- <-; apply G|apply HT].
    - intros j sj. rewrite nth_set. destruct (Nat.eqb_spec k j) as [->|]; [rewrite Ek; intros E; injection E as <-; apply G|apply HX].
  Qed.
  Lemma undisturbed_k (ts : list (nat * proc T A)) xs sch1 i k p r :
    (forall j k p, nth_error ts j = Some (k, p) -> psafe (I k) (fun _ => True) p) -> (forall k s, nth_error xs k = Some s -> I k s) ->
    nth_error ts i = Some (k, p) -> (k < length xs)%nat -> gives (I k) p r -> ~ In i sch1 ->
    exists m, forall sch2, exclusive sch2 ts i k ->
      (forall x, returned (sch1 ++ sch2) ts xs i = Some x -> x = r) /\ ((m <= count_occ Nat.eq_dec sch2 i)%nat -> forall sch3, returned ((sch1 ++ sch2) ++ sch3) ts xs i = Some r).
  Proof.
    intros HT HX Ei LK G NI. set (ts1 := fst (psched sch1 ts xs)). set (xs1 := snd (psched sch1 ts xs)).
    assert (Ei1 : nth_error ts1 i = Some (k, p)) by (unfold ts1; rewrite psched_other by exact NI; exact Ei).
    destruct (nth_error xs1 k) as [s|] eqn:Ek; [|apply nth_error_None in Ek; unfold xs1 in Ek; rewrite psched_len in Ek; lia].
    assert (Is : I k s) by (apply (psched_safe_k sch1 ts xs HT HX k s Ek)). specialize (G s Is).
    exists (psteps p s). intros sch2 EX.
    assert (EX1 : forall j kj pj, In j sch2 -> nth_error ts1 j = Some (kj, pj) -> j = i \/ kj <> k).
    { intros j kj pj Hj Ej. pose proof (psched_obj sch1 ts xs j) as O. fold ts1 in O. rewrite Ej in O. cbn in O. destruct (nth_error ts j) as [[kj' pj']|] eqn:Ej'; [|discriminate]. cbn in O. assert (kj = kj') by congruence. subst kj'. apply (EX j kj pj' Hj Ej'). }
    pose proof (psched_excl sch2 i ts1 xs1 k p s Ei1 Ek EX1) as [R1 _].
    assert (LAST : forall x sch3, returned (sch1 ++ sch2) ts xs i = Some x -> returned ((sch1 ++ sch2) ++ sch3) ts xs i = Some x).
    { intros x sch3. unfold returned. rewrite (psched_app (sch1 ++ sch2)). destruct (nth_error (fst (psched (sch1 ++ sch2) ts xs)) i) as [[k' p']|] eqn:EI; [|discriminate]. intros OX. rewrite (psched_ended sch3 i _ _ k' p' EI); [exact OX|congruence]. }
    assert (RR : returned (sch1 ++ sch2) ts xs i = outcome (fst (psolo (count_occ Nat.eq_dec sch2 i) (p, s)))) by (unfold returned; rewrite psched_app; fold ts1 xs1; rewrite R1; reflexivity).
    set (n := count_occ Nat.eq_dec sch2 i).
    pose proof (psolo_all p s) as ALL. rewrite G in ALL.
    assert (OA : outcome (fst (psolo (psteps p s) (p, s))) = Some r) by (rewrite ALL; cbn [fst]; destruct r; reflexivity).
    split.
    - intros x EXx. rewrite RR in EXx. fold n in EXx. destruct (Nat.le_ge_cases n (psteps p s)) as [L|L].
      + replace (psteps p s) with (n + (psteps p s - n))%nat in OA by lia. rewrite (psolo_same n _ p s x EXx) in OA. congruence.
      + replace n with (psteps p s + (n - psteps p s))%nat in EXx by lia. rewrite (psolo_same _ _ p s r OA) in EXx. congruence.
    - intros L sch3. apply LAST. rewrite RR. fold n. replace n with (psteps p s + (n - psteps p s))%nat by lia. rewrite (psolo_same _ _ p s r OA). exact OA.
  Qed.
End Gen.

Lemma prun_psol {T A} (p : proc T A) s : snd (prun p s) = ('(_, a) <- psol p s ;; Ok a).
Proof. unfold psol. destruct (prun p s) as [s' [a|]]; reflexivity. Qed.
Section Ckks.
  Context {N : nat} (pp : rparams) (WF : wfp N pp).
  Lemma fresh_wok (rs : rlkset N) : wok pp (fresh_with pp rs).
  Proof.
    pose proof (@newWorld_ok N pp) as (A & B & _ & _ & _). split; [exact A|]. split; [exact B|]. unfold fresh_with. cbn [wh0 wh1 wrs].
    assert (H : forall id, mget seq_dec (map (fun '(id, _) => (id, newSwk (N := N) pp)) rs) id = option_map (fun _ => newSwk pp) (mget seq_dec rs id)).
    { intros id. induction rs as [|[x k] l IH]; [reflexivity|]. cbn. destruct (seq_dec id x); [reflexivity|apply IH]. }
    assert (HS : hshape pp (map (fun '(id, _) => (id, newSwk (N := N) pp)) rs)).
    { intros id d. rewrite H. destruct (mget seq_dec rs id); cbn; [|discriminate]. intros E. injection E as <-. apply shS_new. }
    split; [exact HS|]. split; [exact HS|]. intros id Hid. rewrite H. destruct (mget seq_dec rs id); [split; discriminate|congruence].
  Qed.
  Lemma mcode_gives crs pscale (rs : rlkset N) (o : nat -> order) (e : mcall N) : (forall n, order_ok (o n)) -> goodop pp (opOf e) -> gives (winv pp rs) (mcode pp crs pscale o e) (alone pp crs pscale rs o e).
  Proof.
    intros O G w [WO ER]. rewrite prun_psol. unfold alone. pose proof (call_sim pp WF crs pscale o w (fresh_with pp rs) (opOf e) O WO (fresh_wok rs) ER G) as S. rewrite <- (mcode_sol pp crs pscale o e w) in S.
    destruct (psol (mcode pp crs pscale o e) w) as [[w' c]|]; cbn [rbind rsim] in S |- *; destruct (call pp crs pscale o (fresh_with pp rs) (opOf e)) as [[w2 c2]|]; cbn [rsim] in S; try contradiction; [|reflexivity]. destruct S as (E & _). cbn [snd] in E. rewrite <- E. reflexivity.
  Qed.
End Ckks.

(** ** The theorems *)
(** whatever other goroutines did on an Evaluator and its key set before (calls cut off in the middle included), a call that nobody disturbs on them returns what it returns on a new Evaluator,
    after a number of its own steps that does not depend on what the goroutines with other Evaluators and key sets do meanwhile, and nothing that happens later changes the result *)
Theorem C70_exclusive : forall N pp (crs : crsT N) pscale ts xs sch1 i k o e w, wfp N pp -> mready pp crs pscale ts xs -> nth_error ts i = Some (k, mcode pp crs pscale o e) -> nth_error xs k = Some w ->
  (forall n, order_ok (o n)) -> goodop pp (opOf e) -> ~ In i sch1 ->
  exists m, forall sch2, exclusive sch2 ts i k ->
    (forall x, returned (sch1 ++ sch2) ts xs i = Some x -> x = alone pp crs pscale (wrs w) o e) /\
    ((m <= count_occ Nat.eq_dec sch2 i)%nat -> forall sch3, returned ((sch1 ++ sch2) ++ sch3) ts xs i = Some (alone pp crs pscale (wrs w) o e)).
Proof.
  intros N pp crs pscale ts xs sch1 i k o e w WF [HT HX] Ei Ek O G NI.
  set (rsOf := fun k => match nth_error xs k with Some w => wrs w | None => nil end).
  apply (undisturbed_k (fun k => winv pp (rsOf k)) ts xs sch1 i k (mcode pp crs pscale o e)); trivial.
  - intros j kj pj Ej. destruct (HT _ _ Ej) as (k' & o' & e' & E & O' & G'). assert (pj = mcode pp crs pscale o' e') by congruence. subst pj. apply (mcode_safe pp WF); assumption.
  - intros kk s Es. split; [apply (HX _ _ Es)|]. unfold rsOf. rewrite Es. reflexivity.
  - apply nth_error_Some. congruence.
  - replace (wrs w) with (rsOf k) by (unfold rsOf; rewrite Ek; reflexivity). apply (mcode_gives pp WF); assumption.
Qed.
Print Assumptions C70_exclusive.
(** goroutines with an Evaluator and a key set each: every call returns what it returns alone, in every schedule; ciphertexts, plaintexts and rotation and conjugation keys may be shared *)
Corollary C70_own_evaluators : forall N pp (crs : crsT N) pscale ts xs i k o e w, wfp N pp -> mready pp crs pscale ts xs -> nth_error ts i = Some (k, mcode pp crs pscale o e) -> nth_error xs k = Some w ->
  (forall n, order_ok (o n)) -> goodop pp (opOf e) -> (forall j kj pj, nth_error ts j = Some (kj, pj) -> kj = k -> j = i) ->
  exists m, forall sch, (forall x, returned sch ts xs i = Some x -> x = alone pp crs pscale (wrs w) o e) /\ ((m <= count_occ Nat.eq_dec sch i)%nat -> returned sch ts xs i = Some (alone pp crs pscale (wrs w) o e)).
Proof.
  intros N pp crs pscale ts xs i k o e w WF RD Ei Ek O C OWN. destruct (C70_exclusive N pp crs pscale ts xs nil i k o e w WF RD Ei Ek O C (fun H => H)) as (m & H). exists m. intros sch.
  destruct (H sch) as [H1 H2]; [intros j kj pj _ Ej; destruct (Nat.eq_dec j i); [left; assumption|right; intros EK; apply n; apply (OWN _ _ _ Ej EK)]|]. cbn [app] in H1, H2. split; [exact H1|]. intros L. specialize (H2 L nil). rewrite app_nil_r in H2. exact H2.
Qed.

(** ** One Evaluator for two goroutines that multiply by plaintexts *)
Section Race.
  Context {N : nat} (pp : rparams) (WF : wfp N pp).
  Notation world := (world N).
  (** the two writes of polyQPool *)
  Definition ptWrite level (pt : poly N) (e : evalst N) : res (evalst N) :=
    q <- wrLvl level (lvlQ1 pp level ntt (prows pt)) (polyQPool e) ;; q <- wrLvl level (lvlQ1 pp level r_mform q) q ;; Ok (EV (ctxtPool e) q).
  (** the rest of the call, which reads it *)
  Definition ptRest (o : order) pscale (c : ckct N) ps ids level : proc world (ckct N) :=
    let out := ckNew (o 1%nat) ids level (f_mul (csc c) ps) in
    v <~ pfold (fun v id =>
           p <~ pres (cgetL (cv c) id level) ;;
           q <~ pres (cget v id) ;;
           vact (fun e => Ok (e, cset v id (Pol (lvlQ1 pp level intt (lvlQ2 pp level r_mont (lvlQ1 pp level ntt (prows p)) (polyQPool e))) (pntt q)))))
         (o 2%nat (keys (cv c))) (cv out) ;;
    pres ('(out, _) <- Rescale pp (o 3%nat) (CK v (csc out)) pscale None ;; Ok out).
  Lemma ptWrite_ok level pt (e : evalst N) : pool_ok pp e -> (level < length (Qm pp))%nat -> exists e', ptWrite level pt e = Ok e' /\ pool_ok pp e'.
  Proof.
    intros [P1 P2] HL. unfold ptWrite. pose proof (maxL pp WF) as ML. rewrite wrLvl_ok by (try apply lvlQ1_len; lia). cbn [rbind].
    set (q := _ ++ _). assert (LQ : length q = length (polyQPool e)) by (unfold q; rewrite app_length, lvlQ1_len, skipn_length; lia). rewrite wrLvl_ok by (try apply lvlQ1_len; lia). cbn [rbind].
    eexists. split; [reflexivity|]. split; [exact P1|]. cbn [polyQPool]. rewrite app_length, lvlQ1_len, skipn_length. lia.
  Qed.
  Lemma MulPtxt_run (o : order) pscale (c : ckct N) pt ps ids level (w : world) e' : IDSetOf (o 0%nat) (cv c) = Ok ids -> ctLevel (cv c) = Ok level -> (level < length (prows pt))%nat -> ptWrite level pt (wev w) = Ok e' ->
    reach (MulPtxtNewP pp o pscale c pt ps) w (ptRest o pscale c ps ids level) (setV w e') /\ psol (MulPtxtNewP pp o pscale c pt ps) w = psol (ptRest o pscale c ps ids level) (setV w e').
  Proof.
    intros EI EL LP EW. unfold MulPtxtNewP. rewrite EI. cbn [pres pbind]. rewrite EL. cbn [pres pbind]. cbv zeta. destruct (Nat.leb_spec (length (prows pt)) level); [lia|]. fold (ptRest o pscale c ps ids level).
    unfold ptWrite in EW. destruct (wrLvl level (lvlQ1 pp level ntt (prows pt)) (polyQPool (wev w))) as [q1|] eqn:E1; cbn [rbind] in EW; [|discriminate]. destruct (wrLvl level (lvlQ1 pp level r_mform q1) q1) as [q2|] eqn:E2; cbn [rbind] in EW; [|discriminate].
    assert (EZ : EV (ctxtPool (wev w)) q2 = e') by congruence. rewrite <- EZ. split.
    - exists 2%nat. cbn [psolo fst snd pexec pbind vact act]. rewrite E1. cbn [rbind]. cbn [psolo fst snd pexec pbind vact act wev setV polyQPool ctxtPool]. rewrite E2. cbn [rbind]. reflexivity.
    - rewrite psol_vab, E1. cbn [rbind]. rewrite psol_vab, wev_setV. cbn [polyQPool ctxtPool]. rewrite E2. cbn [rbind]. rewrite setV_setV. reflexivity.
  Qed.
  (** the rest of the call changes nothing *)
  Lemma ptRest_reads (o : order) pscale (c : ckct N) ps ids level (w : world) : psafe (eq w) (fun _ => True) (ptRest o pscale c ps ids level).
  Proof.
    unfold ptRest. cbv zeta. apply (psafe_bind _ (fun _ => True)); [|intros v _; apply psafe_pres; trivial]. apply psafe_fold; [exact Logic.I|]. intros v id _ _. apply (psafe_bind _ (fun _ => True)); [apply psafe_pres; trivial|]. intros p _.
    apply (psafe_bind _ (fun _ => True)); [apply psafe_pres; trivial|]. intros q _. apply psafe_act. intros s s' a <- E. cbn [rbind] in E. assert (EZ : setV w (wev w) = s') by congruence. split; [rewrite <- EZ; symmetry; apply setV_id|exact Logic.I].
  Qed.
  Lemma psafe_end {T A} (I : T -> Prop) (Q : A -> Prop) (p : proc T A) : psafe I Q p -> forall s, I s -> I (fst (prun p s)).
  Proof. induction p as [a| |f IH] using proc_induct; cbn [psafe prun]; trivial. intros H s Hs. specialize (H s Hs). specialize (IH s). destruct (f s) as [s' p']. cbn [snd] in IH. apply IH; apply H. Qed.
  Lemma reach_end {T A} (p : proc T A) s : exists q, reach p s q (fst (prun p s)) /\ outcome q = Some (snd (prun p s)).
  Proof. eexists. split; [exists (psteps p s); apply psolo_all|]. destruct (snd (prun p s)); reflexivity. Qed.
End Race.
(** two MulPtxtNew calls on one Evaluator, of ciphertexts of one level: in some schedule the first returns the product of its ciphertext and the plaintext of the second, and the second returns its own product *)
Theorem C70_other_plaintext : forall N pp (crs : crsT N) pscale (oA oB : nat -> order) (cA cB : ckct N) ptA ptB sA sB w level, wfp N pp -> (forall n, order_ok (oA n)) -> (forall n, order_ok (oB n)) -> wok pp w ->
  good pp cA -> good pp cB -> ctLevel (cv cA) = Ok level -> ctLevel (cv cB) = Ok level -> (level < length (prows ptA))%nat -> (level < length (prows ptB))%nat ->
  exists sch, let ts := [(0%nat, mcode pp crs pscale oA (MMulPtxt cA ptA sA)); (0%nat, mcode pp crs pscale oB (MMulPtxt cB ptB sB))] in
    returned sch ts [w] 0 = Some (alone pp crs pscale (wrs w) oA (MMulPtxt cA ptB sA)) /\ returned sch ts [w] 1 = Some (alone pp crs pscale (wrs w) oB (MMulPtxt cB ptB sB)).
Proof.
  intros N pp crs pscale oA oB cA cB ptA ptB sA sB w level WF OA OB WO GA GB LA LB PA PB. cbv zeta. pose proof (proj1 (good_level pp cA level GA LA)) as HL.
  destruct (IDSetOf_ok (oA 0%nat 0%nat) (cv cA) (fun l => OA 0%nat 0%nat l)) as (iA & IA & _). destruct (IDSetOf_ok (oB 0%nat 0%nat) (cv cB) (fun l => OB 0%nat 0%nat l)) as (iB & IB & _).
  destruct (ptWrite_ok pp WF level ptA (wev w) (proj1 (proj2 WO)) HL) as (e1 & E1 & K1). destruct (ptWrite_ok pp WF level ptB e1 K1 HL) as (e2 & E2 & K2).
  destruct (MulPtxt_run pp (oA 0%nat) pscale cA ptA sA iA level w e1 IA LA PA E1) as [RA _]. set (w1 := setV w e1) in *.
  destruct (MulPtxt_run pp (oB 0%nat) pscale cB ptB sB iB level w1 e2 IB LB PB E2) as [RB SB]. destruct (MulPtxt_run pp (oA 0%nat) pscale cA ptB sA iA level w1 e2 IA LA PB E2) as [_ SA]. set (w2 := setV w1 e2) in *.
  assert (W1 : winv pp (wrs w) w1) by (apply (winv_setV pp (wrs w) w e1); [split; [exact WO|reflexivity]|exact K1]).
  pose proof (mcode_gives pp WF crs pscale (wrs w) oA (MMulPtxt cA ptB sA) OA GA w1 W1) as FA. pose proof (mcode_gives pp WF crs pscale (wrs w) oB (MMulPtxt cB ptB sB) OB GB w1 W1) as FB.
  cbn [mcode] in FA, FB. rewrite prun_psol in FA, FB. rewrite SA in FA. rewrite SB in FB. rewrite <- prun_psol in FA, FB.
  set (rA := ptRest pp (oA 0%nat) pscale cA sA iA level) in *. set (rB := ptRest pp (oB 0%nat) pscale cB sB iB level) in *.
  assert (NA : fst (prun rA w2) = w2) by (symmetry; apply (psafe_end (eq w2) (fun _ => True) rA (ptRest_reads pp _ _ _ _ _ _ w2) w2 eq_refl)).
  destruct (reach_end rA w2) as (qA & QA & OQA). destruct (reach_end rB w2) as (qB & QB & OQB). rewrite NA in QA. rewrite FA in OQA. rewrite FB in OQB.
  destruct (psched_alone _ _ (MulPtxtNewP pp (oB 0%nat) pscale cB ptB sB) w w1 RA) as [sch1 P1]. destruct (psched_alone1 _ _ rA w1 w2 RB) as [sch2 P2].
  destruct (psched_alone _ _ rB w2 w2 QA) as [sch3 P3]. destruct (psched_alone1 _ _ qA w2 _ QB) as [sch4 P4].
  exists (((sch1 ++ sch2) ++ sch3) ++ sch4). unfold returned. cbn [mcode]. rewrite (psched_app (_ ++ sch3)), (psched_app (sch1 ++ sch2)), (psched_app sch1), P1. cbn [fst snd]. rewrite P2. cbn [fst snd]. rewrite P3. cbn [fst snd]. rewrite P4. cbn [fst nth_error].
  split; assumption.
Qed.
Print Assumptions C70_other_plaintext.

(** ... and it decrypts to its message times the plaintext of the other goroutine, divided by the dropped primes *)
Theorem C70_wrong_plaintext : forall N pp (crs : crsT N) pscale (oA oB : nat -> order) (cA cB : ckct N) ptA ptB sA sB w level nb, wfp N pp -> (forall n, order_ok (oA n)) -> (forall n, order_ok (oB n)) -> wok pp w ->
  (1 <= level < length (Qm pp))%nat -> wfct pp level false (cv cA) -> wfct pp level false (cv cB) -> (level < length (prows ptA))%nat -> (level < length (prows ptB))%nat -> (forall j, (j <= level)%nat -> inr (Qi pp j) (row (prows ptB) j)) ->
  f_le pscale f_zero = false -> f_eq (f_mul (csc cA) sA) f_zero = false -> divisions pp level (f_mul (csc cA) sA) (f_div pscale (f_of_int 2)) nb ->
  exists sch v, returned sch [(0%nat, mcode pp crs pscale oA (MMulPtxt cA ptA sA)); (0%nat, mcode pp crs pscale oB (MMulPtxt cB ptB sB))] [w] 0 = Some (Ok (CK v (rscale pp level (f_mul (csc cA) sA) nb))) /\
    wfct pp (level - nb) false v /\ (forall x, In x (keys v) <-> In x (keys (cv cA))) /\
    forall s T m mB, (forall x, In x (parties (cv cA)) -> bnd (s x) T) -> decrypts pp s (cv cA) level m -> plain_of pp level ptB mB ->
      exists m', rescaled (prodl (dropped pp nb level)) (length (parties (cv cA))) T (mul mB m) m' /\ decrypts pp s v (level - nb) m'.
Proof.
  intros N pp crs pscale oA oB cA cB ptA ptB sA sB w level nb WF OA OB WO HL WA WB LA LB IB M1 M2 D.
  assert (GA : good pp cA) by (exists level; split; [lia|apply (wfct_shape pp); exact WA]). assert (GB : good pp cB) by (exists level; split; [lia|apply (wfct_shape pp); exact WB]).
  destruct (C70_other_plaintext N pp crs pscale oA oB cA cB ptA ptB sA sB w level WF OA OB WO GA GB (wfct_level pp _ _ _ WA) (wfct_level pp _ _ _ WB) LA LB) as (sch & RA & _).
  pose proof (fresh_wok pp (wrs w)) as (_ & PO & _).
  destruct (C30_mul_plaintext N pp (oA 0%nat) pscale _ cA ptB sA level nb WF (OA 0%nat) PO HL WA LB IB M1 M2 D) as (st' & v & EV' & _ & WV & KV & DV).
  exists sch, v. split; [|split; [exact WV|split; [exact KV|exact DV]]]. rewrite RA. unfold alone. cbn [opOf call]. rewrite EV'. cbn [rbind]. reflexivity.
Qed.
Print Assumptions C70_wrong_plaintext.

(** ** Two Evaluators, one RelinearizationKeySet *)
Section Focus.
  Context {S T : Type} (get : T -> S) (put : T -> S -> T) (GP : forall t s, get (put t s) = s) (PP : forall t s s', put (put t s) s' = put t s').
  Lemma psolo_focus {A} m : forall (p : proc S A) t s, psolo m (focus get put p, put t s) = (focus get put (fst (psolo m (p, s))), put t (snd (psolo m (p, s)))).
  Proof.
    induction m as [|m IH]; intros p t s; cbn [psolo fst snd]; [reflexivity|]. destruct p as [a| |f]; cbn [focus pexec]; [apply (IH (Ret a))|apply (IH Fail)|]. rewrite GP. destruct (f s) as [s' p']. rewrite PP. apply IH.
  Qed.
  Lemma reach_focus {A} (p q : proc S A) t s s' : put t s = t -> reach p s q s' -> reach (focus get put p) t (focus get put q) (put t s').
  Proof. intros E [m H]. exists m. rewrite <- E at 1. rewrite psolo_focus, H. reflexivity. Qed.
  Lemma outcome_focus {A} (p : proc S A) : outcome (focus get put p) = outcome p. Proof. destruct p; reflexivity. Qed.
End Focus.
Section Keys.
  Context {N : nat} (pp : rparams) (WF : wfp N pp).
  Notation world := (world N).
  Definition dig (c : ckct N) level id : res (swk N) := p <- cgetL (cv c) id level ;; Decompose pp level p.
  Lemma fold_digits (c : ckct N) level (body : hoisted N -> string -> res (hoisted N)) l : (forall h id h', body h id = Ok h' -> exists d, dig c level id = Ok d /\ h' = mset seq_dec h id d) ->
    forall h h', rfold body l h = Ok h' -> forall id, (In id l -> exists d, dig c level id = Ok d /\ mget seq_dec h' id = Some d) /\ (~ In id l -> mget seq_dec h' id = mget seq_dec h id).
  Proof.
    intros B. induction l as [|x l IH]; intros h h' E id; cbn [rfold] in E; [assert (h = h') as -> by congruence; split; [intros []|reflexivity]|].
    destruct (body h x) as [h1|] eqn:E1; cbn [rbind] in E; [|discriminate]. destruct (B _ _ _ E1) as (d & D & ->). destruct (IH _ _ E id) as [I1 I2]. split.
    - intros H. destruct (in_dec string_dec id l) as [I|NI]; [apply I1; exact I|]. destruct H as [<-|H]; [|contradiction]. exists d. split; [exact D|]. rewrite I2 by exact NI. rewrite mget_mset. destruct (seq_dec x x); [reflexivity|congruence].
    - intros H. cbn in H. rewrite I2 by tauto. rewrite mget_mset. destruct (seq_dec id x) as [->|]; [tauto|reflexivity].
  Qed.
  Lemma HoistedForm_digits (o : order) (c : ckct N) h level : order_ok o -> ctLevel (cv c) = Ok level -> HoistedForm pp o c = Ok h ->
    forall id, (In id (parties (cv c)) -> exists d, dig c level id = Ok d /\ mget seq_dec h id = Some d) /\ (~ In id (parties (cv c)) -> mget seq_dec h id = None).
  Proof.
    intros O EL E id. unfold HoistedForm in E. destruct (IDSetOf (o 50%nat) (cv c)) as [ids|] eqn:EI; cbn [rbind] in E; [|discriminate]. rewrite EL in E. cbn [rbind] in E. pose proof (ids_of_parties o _ _ _ O EI id) as P.
    assert (Q : In id (o 51%nat (keys ids)) <-> In id (parties (cv c))) by (rewrite <- P; split; apply Permutation_in; [|apply Permutation_sym]; apply O).
    match type of E with rfold ?B _ _ = _ => assert (HB : forall (h : hoisted N) (id : string) (h' : hoisted N), B h id = Ok h' -> exists d, dig c level id = Ok d /\ h' = mset seq_dec h id d) end.
    { intros h0 x h1 E1. unfold dig. destruct (cgetL (cv c) x level) as [p|]; cbn [rbind] in *; [|discriminate]. destruct (Decompose pp level p) as [d|]; cbn [rbind] in *; [|discriminate]. exists d. split; [reflexivity|congruence]. }
    destruct (fold_digits c level _ _ HB nil h E id) as [F1 F2]. rewrite Q in F1, F2. split; [exact F1|exact F2].
  Qed.
  Lemma hoistInto_digits (o : list string -> list string) rs (c : ckct N) ids level : ord1_ok o -> ctLevel (cv c) = Ok level -> (forall id, In id (keys ids) -> mget seq_dec rs id <> None /\ exists d, dig c level id = Ok d) ->
    exists h, hoistInto pp o rs c ids = Ok h /\ forall id, (In id (keys ids) -> exists d, dig c level id = Ok d /\ mget seq_dec h id = Some d) /\ (~ In id (keys ids) -> mget seq_dec h id = None).
  Proof.
    intros O EL H. unfold hoistInto. rewrite EL. cbn [rbind]. set (body := fun h id => p <- cgetL (cv c) id level ;; _ <- rlk_get rs id ;; d <- Decompose pp level p ;; Ok (mset seq_dec h id d)).
    assert (OKF : forall l, (forall x, In x l -> In x (keys ids)) -> forall h0, exists h, rfold body l h0 = Ok h).
    { induction l as [|x l IH]; intros Hl h0; cbn [rfold]; [eexists; reflexivity|]. destruct (H x (Hl x (or_introl eq_refl))) as [R (d & D)]. assert (EB : body h0 x = Ok (mset seq_dec h0 x d)).
      { unfold dig in D. unfold body. destruct (cgetL (cv c) x level) as [p|]; cbn [rbind] in *; [|discriminate]. unfold rlk_get. destruct (mget seq_dec rs x); [|congruence]. cbn [rbind]. rewrite D. reflexivity. }
      rewrite EB. cbn [rbind]. apply IH. intros; apply Hl; right; assumption. }
    destruct (OKF (o (keys ids)) (fun x Hx => Permutation_in _ (O _) Hx) nil) as (h & E). exists h. split; [exact E|]. intros id.
    assert (Q : In id (o (keys ids)) <-> In id (keys ids)) by (split; apply Permutation_in; [|apply Permutation_sym]; apply O).
    match type of E with rfold ?B _ _ = _ => assert (HB : forall (h : hoisted N) (id : string) (h' : hoisted N), B h id = Ok h' -> exists d, dig c level id = Ok d /\ h' = mset seq_dec h id d) end.
    { intros h0 x h1 E1. unfold body in E1. unfold dig. destruct (cgetL (cv c) x level) as [p|]; cbn [rbind] in *; [|discriminate]. destruct (rlk_get rs x); cbn [rbind] in *; [|discriminate]. destruct (Decompose pp level p) as [d|]; cbn [rbind] in *; [|discriminate]. exists d. split; [reflexivity|congruence]. }
    destruct (fold_digits c level body (o (keys ids)) HB nil h E id) as [F1 F2]. rewrite Q in F1, F2. split; [exact F1|exact F2].
  Qed.
  (** a pass over one operand leaves its digits in the HoistPool *)
  Lemma hoistP_run (o : list string -> list string) second (c : ckct N) ids rs h (w : world) level : ord1_ok o -> winv pp rs w -> good pp c -> ctLevel (cv c) = Ok level -> (forall id, In id (keys ids) <-> In id (parties (cv c))) ->
    (forall id, In id (parties (cv c)) -> mget seq_dec rs id <> None) -> (forall id, (In id (parties (cv c)) -> exists d, dig c level id = Ok d /\ mget seq_dec h id = Some d) /\ (~ In id (parties (cv c)) -> mget seq_dec h id = None)) ->
    exists w', psol (hoistP pp o second c ids) w = Ok (w', tt) /\ winv pp rs w' /\ hinv pp level h (hpool second w') /\ hpool (negb second) w' = hpool (negb second) w /\ wev w' = wev w.
  Proof.
    intros O IW G EL PI KR HD. rewrite hoistP_sol.
    destruct (hoistInto_digits o rs c ids level O EL) as (h' & EH & HD'). { intros id Hid. apply PI in Hid. split; [apply KR; exact Hid|]. destruct (proj1 (HD id) Hid) as (d & D & _). exists d. exact D. }
    assert (SH : sh pp (wks w)) by apply IW. assert (HS : hshape pp (hpool second w)) by (destruct IW as [(_ & _ & A & B & _) _]; destruct second; [exact B|exact A]).
    pose proof (hoistIntoSt_sim pp WF o rs (wks w) (hpool second w) c ids SH (good_fits pp c G) HS O) as S. rewrite EH in S.
    match type of S with ?X -> _ => assert (K : X) end. { intros id Hid. apply PI in Hid. pose proof (KR id Hid) as A. split; [exact A|]. destruct IW as [(_ & _ & _ & _ & C) ER]. rewrite ER in C. destruct (C id A). destruct second; assumption. }
    specialize (S K). destruct (hoistIntoSt pp o (wks w) (hpool second w) c ids) as [[st hp]|]; cbn [rsim] in S; [|contradiction]. destruct S as (Ss & KK & IV & _). cbn [rbind]. exists (setKH second w (st, hp)). split; [reflexivity|].
    assert (WI : winv pp rs (setKH second w (st, hp))).
    { destruct IW as [WO ER]. split; [|destruct second; exact ER]. unfold setKH. cbn [fst snd]. pose proof WO as (_ & _ & A & B & _).
      destruct second; cbn [setH setK]; apply (hkeep_wok pp st w); trivial; try apply hkeep_refl; assumption. }
    split; [exact WI|]. split; [|destruct second; split; reflexivity].
    replace (hpool second (setKH second w (st, hp))) with hp by (destruct second; reflexivity). intros id d Ed.
    destruct (in_dec string_dec id (parties (cv c))) as [I|NI]; [|rewrite (proj2 (HD id) NI) in Ed; discriminate].
    destruct (proj1 (HD id) I) as (d1 & D1 & M1). destruct (proj1 (HD' id) (proj2 (PI id) I)) as (d2 & D2 & M2). assert (d1 = d2) by congruence. assert (d = d1) by congruence. subst d d2. apply (IV level EL id d1 M2).
  Qed.
  (** both passes of MulRelinNew *)
  Lemma MulRelin_run (o : order) crs pscale (c0 c1 : ckct N) h0 h1 rs (w : world) l0 l1 o0 o1 : order_ok o -> order_ok o0 -> order_ok o1 -> winv pp rs w -> good pp c0 -> good pp c1 -> ctLevel (cv c0) = Ok l0 -> ctLevel (cv c1) = Ok l1 ->
    (forall id, In id (parties (cv c0)) \/ In id (parties (cv c1)) -> mget seq_dec rs id <> None) -> HoistedForm pp o0 c0 = Ok h0 -> HoistedForm pp o1 c1 = Ok h1 ->
    exists w', reach (MulRelinNewP pp o crs pscale c0 c1 false) w (MulRelinHoistedNewP pp o crs pscale c0 c1 (hpool false) (hpool true)) w' /\ winv pp rs w' /\ hinv pp l0 h0 (wh0 w') /\ hinv pp l1 h1 (wh1 w').
  Proof.
    intros O O0 O1 IW G0 G1 L0 L1 KR H0 H1. pose proof (HoistedForm_digits o0 c0 h0 l0 O0 L0 H0) as D0. pose proof (HoistedForm_digits o1 c1 h1 l1 O1 L1 H1) as D1.
    destruct (IDSetOf_ok (o 60%nat) (cv c0) (fun l => O 60%nat l)) as (i0 & E0 & _). destruct (IDSetOf_ok (o 62%nat) (cv c1) (fun l => O 62%nat l)) as (i1 & E1 & _).
    destruct (hoistP_run (o 61%nat) false c0 i0 rs h0 w l0 (fun l => O 61%nat l) IW G0 L0 (ids_of_parties o _ _ _ O E0) (fun id Hid => KR id (or_introl Hid)) D0) as (w1 & P1 & I1 & V1 & _).
    destruct (hoistP_run (o 63%nat) true c1 i1 rs h1 w1 l1 (fun l => O 63%nat l) I1 G1 L1 (ids_of_parties o _ _ _ O E1) (fun id Hid => KR id (or_intror Hid)) D1) as (w2 & P2 & I2 & V2 & K2 & _).
    exists w2. split; [|split; [exact I2|split; [|exact V2]]].
    - unfold MulRelinNewP. rewrite E0. cbn [pres pbind]. rewrite E1. cbn [pres pbind]. eapply reach_trans; [apply reach_bind; apply (reach_sol _ _ _ _ P1)|]. cbn [pbind]. apply (reach_bind _ (Ret tt)). apply (reach_sol _ _ _ _ P2).
    - cbn [negb hpool] in K2, V1. rewrite K2. exact V1.
  Qed.
  (** the rest of MulRelinNew with the digits of other operands in the HoistPool *)
  Lemma MulRelin_rest (o : order) crs pscale (c0 c1 d0 d1 : ckct N) h0 h1 rs (w : world) l0 l1 o0 o1 : order_ok o -> order_ok o0 -> order_ok o1 -> winv pp rs w -> good pp c0 -> good pp c1 -> good pp d0 -> good pp d1 ->
    ctLevel (cv c0) = Ok l0 -> ctLevel (cv c1) = Ok l1 -> ctLevel (cv d0) = Ok l0 -> ctLevel (cv d1) = Ok l1 ->
    (forall id, In id (parties (cv c0)) -> In id (parties (cv d0))) -> (forall id, In id (parties (cv c1)) -> In id (parties (cv d1))) -> HoistedForm pp o0 d0 = Ok h0 -> HoistedForm pp o1 d1 = Ok h1 ->
    hinv pp l0 h0 (wh0 w) -> hinv pp l1 h1 (wh1 w) ->
    snd (prun (MulRelinHoistedNewP pp o crs pscale c0 c1 (hpool false) (hpool true)) w) = MulRelinHoistedNew pp o crs pscale c0 c1 (Some h0) (Some h1) rs.
  Proof.
    intros O O0 O1 [WO ER] G0 G1 GD0 GD1 L0 L1 M0 M1 P0 P1 H0 H1 V0 V1. rewrite prun_psol, MulRelinHoistedNewP_sol by reflexivity. cbn [hpool]. rewrite ER.
    pose proof (HoistedForm_digits o0 d0 h0 l0 O0 M0 H0) as D0. pose proof (HoistedForm_digits o1 d1 h1 l1 O1 M1 H1) as D1.
    pose proof (MulRelinHoistedNewSt_sim pp WF o crs pscale (wks w) c0 c1 (Some h0) (Some (wh0 w)) (Some h1) (Some (wh1 w)) rs O (proj1 WO) G0 G1) as S.
    match type of S with ?X -> _ => assert (K : X) end.
    { intros l Hl. specialize (Hl l0 L0). pose proof (hinv_hrel pp WF l0 l (parties (cv d0)) h0 (wh0 w) Hl (proj1 (good_level pp _ _ GD0 M0)) V0) as X. cbn [hrel] in X |- *.
      intros id Hid. apply X; [|apply P0; exact Hid]. intros x Hx. destruct (proj1 (D0 x) Hx) as (d & _ & E). congruence. }
    specialize (S K). clear K. match type of S with ?X -> _ => assert (K : X) end.
    { intros l Hl. specialize (Hl l1 L1). pose proof (hinv_hrel pp WF l1 l (parties (cv d1)) h1 (wh1 w) Hl (proj1 (good_level pp _ _ GD1 M1)) V1) as X. cbn [hrel] in X |- *.
      intros id Hid. apply X; [|apply P1; exact Hid]. intros x Hx. destruct (proj1 (D1 x) Hx) as (d & _ & E). congruence. }
    specialize (S K). destruct (MulRelinHoistedNew pp o crs pscale c0 c1 (Some h0) (Some h1) rs) as [c|], (MulRelinHoistedNewSt pp o crs pscale (wks w) c0 c1 (Some (wh0 w)) (Some (wh1 w)) rs) as [[st c']|]; cbn [rsim rbind] in S |- *; try contradiction; [|reflexivity].
    destruct S as [E _]. cbn [snd] in E. congruence.
  Qed.
End Keys.
(** MulRelinNew calls of two goroutines that have an Evaluator each but use one RelinearizationKeySet, for operands of the same levels: in some schedule the first call returns what MulRelinHoistedNew returns
    for its ciphertexts with the hoisted forms of the ciphertexts of the other goroutine *)
Theorem C70_shared_key_set : forall N pp (crs : crsT N) pscale (oA oB : nat -> order) (a0 a1 b0 b1 : ckct N) h0 h1 o0 o1 (t : duo N) l0 l1, wfp N pp -> (forall n, order_ok (oA n)) -> (forall n, order_ok (oB n)) -> order_ok o0 -> order_ok o1 ->
  wok pp (viewA t) -> wok pp (viewB t) -> (l0 < length (Qm pp))%nat -> (l1 < length (Qm pp))%nat -> wfct pp l0 false (cv a0) -> wfct pp l1 false (cv a1) -> wfct pp l0 false (cv b0) -> wfct pp l1 false (cv b1) ->
  (forall id, In id (parties (cv a0)) -> In id (parties (cv b0))) -> (forall id, In id (parties (cv a1)) -> In id (parties (cv b1))) ->
  (forall id, In id (parties (cv b0)) \/ In id (parties (cv b1)) -> mget seq_dec (drs t) id <> None) ->
  HoistedForm pp o0 b0 = Ok h0 -> HoistedForm pp o1 b1 = Ok h1 ->
  exists sch, returned sch [(0%nat, focus viewA putA (mcode pp crs pscale oA (MMul a0 a1 false))); (0%nat, focus viewB putB (mcode pp crs pscale oB (MMul b0 b1 false)))] [t] 0 =
    Some (MulRelinHoistedNew pp (oA 0%nat) crs pscale a0 a1 (Some h0) (Some h1) (drs t)).
Proof.
  intros N pp crs pscale oA oB a0 a1 b0 b1 h0 h1 o0 o1 t l0 l1 WF OA OB O0 O1 WA WB HL0 HL1 XA0 XA1 XB0 XB1 P0 P1 KR HB0 HB1. cbn [mcode].
  assert (GG : forall l (c : ckct N), (l < length (Qm pp))%nat -> wfct pp l false (cv c) -> good pp c /\ ctLevel (cv c) = Ok l) by (intros l c HL X; split; [exists l; split; [exact HL|apply (wfct_shape pp); exact X]|apply (wfct_level pp _ _ _ X)]).
  destruct (GG _ _ HL0 XA0) as [GA0 LA0]. destruct (GG _ _ HL1 XA1) as [GA1 LA1]. destruct (GG _ _ HL0 XB0) as [GB0 LB0]. destruct (GG _ _ HL1 XB1) as [GB1 LB1].
  destruct (form_ok pp WF o0 a0 l0 O0 HL0 XA0) as (g0 & HA0 & _). destruct (form_ok pp WF o1 a1 l1 O1 HL1 XA1) as (g1 & HA1 & _).
  assert (LA : forall (t : duo N) w, viewA (putA t w) = w) by (intros ? []; reflexivity). assert (LB : forall (t : duo N) w, viewB (putB t w) = w) by (intros ? []; reflexivity).
  assert (LA2 : forall (t : duo N) w w', putA (putA t w) w' = putA t w') by reflexivity. assert (LB2 : forall (t : duo N) w w', putB (putB t w) w' = putB t w') by reflexivity.
  assert (LA3 : forall t : duo N, putA t (viewA t) = t) by (intros [[] []]; reflexivity). assert (LB3 : forall t : duo N, putB t (viewB t) = t) by (intros [[] []]; reflexivity).
  set (rs := drs t) in *.
  destruct (MulRelin_run pp WF (oA 0%nat) crs pscale a0 a1 g0 g1 rs (viewA t) l0 l1 o0 o1 (OA 0%nat) O0 O1) as (wA & RA & IA & _ & _); trivial; [split; [exact WA|reflexivity]|intros id [H|H]; apply KR; auto|].
  set (t1 := putA t wA).
  assert (I1 : winv pp rs (viewB t1)).
  { destruct IA as [(_ & _ & A1 & A2 & A3) ER]. destruct WB as (B1 & B2 & _). split; [|exact ER]. split; [exact B1|]. split; [exact B2|]. split; [exact A1|]. split; [exact A2|exact A3]. }
  destruct (MulRelin_run pp WF (oB 0%nat) crs pscale b0 b1 h0 h1 rs (viewB t1) l0 l1 o0 o1 (OB 0%nat) O0 O1) as (wB & RB & IB & V0 & V1); trivial.
  set (t2 := putB t1 wB).
  assert (I2 : winv pp rs (viewA t2)).
  { destruct IB as [(_ & _ & A1 & A2 & A3) ER]. destruct IA as [(B1 & B2 & _) _]. split; [|exact ER]. split; [exact B1|]. split; [exact B2|]. split; [exact A1|]. split; [exact A2|exact A3]. }
  pose proof (MulRelin_rest pp WF (oA 0%nat) crs pscale a0 a1 b0 b1 h0 h1 rs (viewA t2) l0 l1 o0 o1 (OA 0%nat) O0 O1 I2 GA0 GA1 GB0 GB1 LA0 LA1 LB0 LB1 P0 P1 HB0 HB1 V0 V1) as FA.
  set (pB := focus viewB putB (MulRelinNewP pp (oB 0%nat) crs pscale b0 b1 false)).
  pose proof (reach_focus viewA putA LA LA2 _ _ t (viewA t) wA (LA3 t) RA) as RA'. fold t1 in RA'. pose proof (reach_focus viewB putB LB LB2 _ _ t1 (viewB t1) wB (LB3 t1) RB) as RB'. fold t2 pB in RB'.
  set (rA := MulRelinHoistedNewP pp (oA 0%nat) crs pscale a0 a1 (hpool false) (hpool true)) in *. destruct (reach_end rA (viewA t2)) as (qA & QA & OQ). rewrite FA in OQ.
  pose proof (reach_focus viewA putA LA LA2 _ _ t2 (viewA t2) _ (LA3 t2) QA) as QA'.
  destruct (psched_alone _ _ pB t t1 RA') as [sch1 S1]. destruct (psched_alone1 _ _ (focus viewA putA rA) t1 t2 RB') as [sch2 S2]. match type of RB' with reach _ _ ?q _ => destruct (psched_alone _ _ q t2 _ QA') as [sch3 S3] end.
  exists ((sch1 ++ sch2) ++ sch3). unfold returned. rewrite (psched_app (sch1 ++ sch2)), (psched_app sch1), S1. cbn [fst snd]. rewrite S2. cbn [fst snd]. rewrite S3. cbn [fst nth_error]. rewrite outcome_focus. exact OQ.
Qed.
Print Assumptions C70_shared_key_set.

(** ** The hypotheses can be met: N = 8, ciphertexts of alice and bob with their relinearization keys, two plaintexts *)
Definition exs_rs : rlkset 8 := map (fun id => (id, ex_rlk id)) ["bob"; "alice"]%string.
Definition exs_ab : ckct 8 := CK (ex_ct 3 ["alice"; "bob"]%string) sc1.
Definition exs_a : ckct 8 := CK (ex_ct 3 ["alice"]%string) sc1.
Definition exs_pt : poly 8 := Pol (rows_of ex_pp (ex_poly [2; 0; -3; 1])) false.
(** two new Evaluators and a new key set *)
Definition twoOf {N} (w : world N) : duo N := Duo (wks w, wev w) (wks w, wev w) (wrs w) (wh0 w) (wh1 w).
Lemma exs_shared (w : world 8) (crs : crsT 8) ps (o : order) (a b : ckct 8) : order_ok o -> wok ex_pp w -> wfct ex_pp 2 false (cv a) -> wfct ex_pp 2 false (cv b) -> (forall id, In id (parties (cv a)) -> In id (parties (cv b))) ->
  (forall id, In id (parties (cv b)) -> mget seq_dec (wrs w) id <> None) ->
  exists h sch, HoistedForm ex_pp o b = Ok h /\
    returned sch [(0%nat, focus viewA putA (mcode ex_pp crs ps (fun _ => o) (MMul a a false))); (0%nat, focus viewB putB (mcode ex_pp crs ps (fun _ => o) (MMul b b false)))] [twoOf w] 0 =
      Some (MulRelinHoistedNew ex_pp o crs ps a a (Some h) (Some h) (wrs w)).
Proof.
  intros O WO WA WB P K. assert (LV : (2 < length (Qm ex_pp))%nat) by (cbn; lia). destruct (form_ok ex_pp ex_wf o b 2 O LV WB) as (h & EH & _). destruct w as [k e rs h0 h1].
  destruct (C70_shared_key_set 8 ex_pp crs ps (fun _ => o) (fun _ => o) a a b b h h o o (twoOf (W k e rs h0 h1)) 2 2 ex_wf (fun _ => O) (fun _ => O) O O WO WO LV LV WA WA WB WB P P ltac:(intros id [H|H]; exact (K id H)) EH EH) as (sch & R1).
  exists h, sch. split; [exact EH|exact R1].
Qed.
Example C70_nonvacuous : let o := fun _ : nat => ex_ord in let ps := f_of_int 200 in let one := f_of_int 1 in let w := fresh_with ex_pp exs_rs in 
  let callA := mcode ex_pp ex_crs ps o (MMulPtxt exs_ab (ex_pt false) one) in let callB := mcode ex_pp ex_crs ps o (MMulPtxt exs_a exs_pt one) in
  parties (cv exs_ab) = ["alice"; "bob"]%string /\ parties (cv exs_a) = ["alice"]%string /\
  (* two goroutines that share Evaluator 0 and its key set, and one that has its own *)
  mready ex_pp ex_crs ps [(0%nat, callA); (0%nat, callB); (1%nat, mcode ex_pp ex_crs ps o (MMul exs_ab exs_a false))] [w; w] /\
  (* the product with the plaintext of the other goroutine *)
  (exists sch v, returned sch [(0%nat, callA); (0%nat, callB)] [w] 0 = Some (Ok (CK v (rscale ex_pp 2 (f_mul sc1 one) 1))) /\
    forall s T m, (forall x, In x (parties (cv exs_ab)) -> bnd (s x) T) -> decrypts ex_pp s (cv exs_ab) 2 m -> exists m', rescaled (prodl (dropped ex_pp 1 2)) 2 T (mul (ex_poly [2; 0; -3; 1]) m) m' /\ decrypts ex_pp s v 1 m') /\
  (* two Evaluators and one key set: a square of a ciphertext of alice, with the digits of a ciphertext of alice and bob *)
  (exists h sch, HoistedForm ex_pp ex_ord exs_ab = Ok h /\
    returned sch [(0%nat, focus viewA putA (mcode ex_pp ex_crs ps o (MMul exs_a exs_a false))); (0%nat, focus viewB putB (mcode ex_pp ex_crs ps o (MMul exs_ab exs_ab false)))] [twoOf w] 0 =
      Some (MulRelinHoistedNew ex_pp ex_ord ex_crs ps exs_a exs_a (Some h) (Some h) exs_rs)).
Proof.
  assert (WA : wfct ex_pp 2 false (cv exs_ab)) by (apply (ex_ct_wf 3); [lia|exact ex_nd2]).
  assert (WB : wfct ex_pp 2 false (cv exs_a)) by (apply (ex_ct_wf 3); [lia|exact ex_nd1]).
  assert (LV : (2 < length (Qm ex_pp))%nat) by (cbn; lia).
  assert (O : forall n : nat, order_ok ((fun _ : nat => ex_ord) n)) by (intros; apply ex_ord_ok).
  assert (WO : wok ex_pp (fresh_with ex_pp exs_rs)) by apply fresh_wok.
  assert (G : forall c : ckct 8, wfct ex_pp 2 false (cv c) -> good ex_pp c) by (intros c W; exists 2%nat; split; [exact LV|apply (wfct_shape ex_pp); exact W]).
  destruct (rows_of_sample ex_pp 8 3 (ex_poly [2; 0; -3; 1]) ex_wf) as [_ SP]; [apply bnd_poly; [lia|reflexivity]|].
  destruct C30_nonvacuous as (LA & _ & _ & DV).
  cbv zeta. split; [reflexivity|]. split; [reflexivity|]. split; [split|split].
  - intros j t E. destruct j as [|[|[|j]]]; cbn [nth_error] in E; [..|destruct j; discriminate].
    + exists 0%nat, (fun _ => ex_ord), (MMulPtxt exs_ab (ex_pt false) (f_of_int 1)). split; [congruence|]. split; [exact O|exact (G _ WA)].
    + exists 0%nat, (fun _ => ex_ord), (MMulPtxt exs_a exs_pt (f_of_int 1)). split; [congruence|]. split; [exact O|exact (G _ WB)].
    + exists 1%nat, (fun _ => ex_ord), (MMul exs_ab exs_a false). split; [congruence|]. split; [exact O|]. split; [exact (G _ WA)|split; [exact (G _ WB)|discriminate]].
  - intros k s E. destruct k as [|[|k]]; cbn [nth_error] in E; [..|destruct k; discriminate]; (assert (EZ : fresh_with ex_pp exs_rs = s) by congruence); rewrite <- EZ; exact WO.
  - destruct (C70_wrong_plaintext 8 ex_pp ex_crs (f_of_int 200) (fun _ => ex_ord) (fun _ => ex_ord) exs_ab exs_a (ex_pt false) exs_pt (f_of_int 1) (f_of_int 1) (fresh_with ex_pp exs_rs) 2 1 ex_wf O O WO) as (sch & v & R1 & _ & _ & D).
    + split; [lia|exact LV].
    + exact WA.
    + exact WB.
    + exact LA.
    + cbn. lia.
    + intros j Hj. apply SP. cbn. lia.
    + vm_compute. reflexivity.
    + vm_compute. reflexivity.
    + exact DV.
    + exists sch, v. split; [exact R1|]. intros s T m HT Dm. apply (D s T m (ex_poly [2; 0; -3; 1]) HT Dm). intros j Hj. apply SP. cbn. lia.
  - apply (exs_shared (fresh_with ex_pp exs_rs) ex_crs (f_of_int 200) ex_ord exs_a exs_ab ex_ord_ok WO WB WA).
    + intros id Hid. assert (E1 : parties (cv exs_a) = ["alice"%string]) by reflexivity. assert (E2 : parties (cv exs_ab) = ["alice"; "bob"]%string) by reflexivity. rewrite E1 in Hid. rewrite E2. destruct Hid as [<-|[]]. left. reflexivity.
    + intros id Hid. assert (E2 : parties (cv exs_ab) = ["alice"; "bob"]%string) by reflexivity. rewrite E2 in Hid. clear - Hid. cbn [wrs fresh_with]. unfold exs_rs. generalize ex_rlk. intros f.
      destruct Hid as [<-|[<-|[]]]; cbn; discriminate.
Qed.
