(** C69: Evaluators whose RotateNew, RotateHoistedNew and ConjugateNew are called by several goroutines. *)
From Flocq Require Import Core BinarySingleNaN.
From Verif Require Import Base IdSetModel IdSetProofs KeySetModel NumTheory Negacyclic Ntt Word FloatModel CkksFloat BasisExt BasisExtProofs Rows RlweModel SchemeSpec ExtProd ExtProps KeyGenModel Galois KeyGenProofs Instance CtModel CtSpec CtProofs EncDecProofs KeySwitchModel Digits KsLoops RotProofs MulProofs CkksModel BfvModel KsPool KsPoolProofs EvalPool EvalPoolProofs BfvMulModel BfvConv BfvPool BfvPoolProofs ShareModel PropsShare EvShare EvShareProofs PropsEnc PropsObjShare PropsKeySwitch PropsIndex PropsCkks Slots PropsSlots PropsRotate PropsBfvConv.
Open Scope Z_scope.

(** ** Specification *)
(** the calls of a mkckks Evaluator, with the iteration orders of their Go maps *)
Inductive ecall (N : nat) :=
| CRotate (c : ckct N) (k : Z) (rk : rotset N)
| CRotateHoisted (c : ckct N) (k : Z) (h : hoisted N) (rk : rotset N)
| CConjugate (c : ckct N) (ck : conjset N).
Arguments CRotate {N} c k rk. Arguments CRotateHoisted {N} c k h rk. Arguments CConjugate {N} c ck.
Definition code {N} (pp : rparams) (crs : crsT N) (o : nat -> order) (e : ecall N) : proc (kst N) (ckct N) :=
  match e with
  | CRotate c k rk => RotateNewP pp o crs c k rk
  | CRotateHoisted c k h rk => RotateHoistedNewP pp o crs c k h rk
  | CConjugate c ck => ConjugateNewP pp (o 0%nat) crs c ck
  end.
(** what the call returns when it has local buffers (CkksModel.v; C22-C24 say what that is) *)
Definition pure_result {N} (pp : rparams) (crs : crsT N) (o : nat -> order) (e : ecall N) : res (ckct N) :=
  match e with
  | CRotate c k rk => RotateNew pp o crs c k rk
  | CRotateHoisted c k h rk => RotateHoistedNew pp o crs c k h rk
  | CConjugate c ck => ConjugateNew pp (o 0%nat) crs c ck
  end.
(** the operand has no more rows than the modulus has primes; a hoisted form is one of its operand: it has an entry for each party *)
Definition call_ok {N} (pp : rparams) (e : ecall N) : Prop :=
  match e with
  | CRotate c _ _ | CConjugate c _ => fits pp (cv c)
  | CRotateHoisted c _ h _ => good pp c /\ covers h (parties (cv c))
  end.
Definition returned {T A} (sch : list nat) (ts : list (nat * proc T A)) (xs : list T) (i : nat) : option (res A) :=
  match nth_error (fst (psched sch ts xs)) i with Some (_, p) => outcome p | None => None end.
(** in [sch] nobody but goroutine i uses object k *)
Definition exclusive {T A} (sch : list nat) (ts : list (nat * proc T A)) (i k : nat) : Prop := forall j kj pj, In j sch -> nth_error ts j = Some (kj, pj) -> j = i \/ kj <> k.
(** goroutines that are about to make calls on Evaluators whose buffers have the size they were allocated with (C33: calls leave them so) *)
Definition ready {N} (pp : rparams) (crs : crsT N) (ts : list (nat * proc (kst N) (ckct N))) (xs : list (kst N)) : Prop :=
  (forall j t, nth_error ts j = Some t -> exists k o e, t = (k, code pp crs o e) /\ (forall n, order_ok (o n)) /\ call_ok pp e) /\ forall k s, nth_error xs k = Some s -> sh pp s.

(** ** A call that runs undisturbed *)
Section Gen.
  Context {T A : Type} (I : T -> Prop).
  Definition gives (p : proc T A) (r : res A) : Prop := forall s, I s -> snd (prun p s) = r.
  Lemma gives_sol p r (Q : A -> T * A -> Prop) : (forall a sb, Q a sb -> a = snd sb) -> (forall s, I s -> rsim Q r (psol p s)) -> gives p r.
  Proof.
    intros HQ H s Hs. specialize (H s Hs). unfold psol in H. destruct (prun p s) as [s' q]. cbn [snd]. unfold rsim in H. destruct q as [a|]; destruct r as [a'|]; try contradiction; [|reflexivity]. apply HQ in H. cbn in H. congruence.
  Qed.
  Lemma undisturbed (ts : list (nat * proc T A)) xs sch1 i k p r :
    (forall j k p, nth_error ts j = Some (k, p) -> psafe I (fun _ => True) p) -> (forall k s, nth_error xs k = Some s -> I s) ->
    nth_error ts i = Some (k, p) -> (k < length xs)%nat -> gives p r -> ~ In i sch1 ->
    exists m, forall sch2, exclusive sch2 ts i k ->
      (forall x, returned (sch1 ++ sch2) ts xs i = Some x -> x = r) /\ ((m <= count_occ Nat.eq_dec sch2 i)%nat -> forall sch3, returned ((sch1 ++ sch2) ++ sch3) ts xs i = Some r).
  Proof.
    intros HT HX Ei LK G NI. set (ts1 := fst (psched sch1 ts xs)). set (xs1 := snd (psched sch1 ts xs)).
    assert (Ei1 : nth_error ts1 i = Some (k, p)) by (unfold ts1; rewrite psched_other by exact NI; exact Ei).
    destruct (nth_error xs1 k) as [s|] eqn:Ek; [|apply nth_error_None in Ek; unfold xs1 in Ek; rewrite psched_len in Ek; lia].
    assert (Is : I s) by (apply (psched_safe I sch1 ts xs HT HX k s Ek)). specialize (G s Is).
    exists (psteps p s). intros sch2 EX.
    assert (EX1 : forall j kj pj, In j sch2 -> nth_error ts1 j = Some (kj, pj) -> j = i \/ kj <> k).
    { intros j kj pj Hj Ej. pose proof (psched_obj sch1 ts xs j) as O. fold ts1 in O. rewrite Ej in O. cbn in O. destruct (nth_error ts j) as [[kj' pj']|] eqn:Ej'; [|discriminate]. cbn in O. assert (kj = kj') by congruence. subst kj'. apply (EX j kj pj' Hj Ej'). }
    pose proof (psched_excl sch2 i ts1 xs1 k p s Ei1 Ek EX1) as [R1 _].
    assert (LAST : forall x sch3, returned (sch1 ++ sch2) ts xs i = Some x -> returned ((sch1 ++ sch2) ++ sch3) ts xs i = Some x).
    { intros x sch3. unfold returned. rewrite (psched_app (sch1 ++ sch2)). destruct (nth_error (fst (psched (sch1 ++ sch2) ts xs)) i) as [[k' p']|] eqn:EI; [|discriminate]. intros OX. rewrite (psched_ended sch3 i _ _ k' p' EI); [exact OX|congruence]. }
    assert (RR : returned (sch1 ++ sch2) ts xs i = outcome (fst (psolo (count_occ Nat.eq_dec sch2 i) (p, s)))) by (unfold returned; rewrite psched_app; fold ts1 xs1; rewrite R1; reflexivity).
    set (n := count_occ Nat.eq_dec sch2 i).
    pose proof (psolo_all p s) as ALL. rewrite G in ALL.
    assert (OA : outcome (fst (psolo (psteps p s) (p, s))) = Some r) by (rewrite ALL; cbn [fst]; destruct r; reflexivity).
    split.
    - intros x EXx. rewrite RR in EXx. fold n in EXx. destruct (Nat.le_ge_cases n (psteps p s)) as [L|L].
      + replace (psteps p s) with (n + (psteps p s - n))%nat in OA by lia. rewrite (psolo_same n _ p s x EXx) in OA. congruence.
      + replace n with (psteps p s + (n - psteps p s))%nat in EXx by lia. rewrite (psolo_same _ _ p s r OA) in EXx. congruence.
    - intros L sch3. apply LAST. rewrite RR. fold n. replace n with (psteps p s + (n - psteps p s))%nat by lia. rewrite (psolo_same _ _ p s r OA). exact OA.
  Qed.
End Gen.

Section Ckks.
  Context {N : nat} (pp : rparams) (WF : wfp N pp).
  Lemma code_gives crs (o : nat -> order) (e : ecall N) : (forall n, order_ok (o n)) -> call_ok pp e -> gives (sh pp) (code pp crs o e) (pure_result pp crs o e).
  Proof.
    intros O C. destruct e as [c k rk|c k h rk|c ck]; cbn [code pure_result call_ok] in *.
    - apply (gives_sol (sh pp) _ _ (ksame pp)); [intros a sb [H _]; exact H|]. intros s Hs. rewrite RotateNewP_sol. apply (RotateNewSt_sim pp WF); assumption.
    - destruct C as [G CV]. apply (gives_sol (sh pp) _ _ (ksame pp)); [intros a sb [H _]; exact H|]. intros s Hs. rewrite RotateHoistedNewP_sol. apply (RotateHoistedNewSt_sim pp WF); try assumption. intros l _ id d E. exists d. split; [exact E|apply drel_refl].
    - apply (gives_sol (sh pp) _ _ (ksame pp)); [intros a sb [H _]; exact H|]. intros s Hs. rewrite ConjugateNewP_sol. apply (ConjugateNewSt_sim pp WF); trivial.
  Qed.
  Lemma code_safe crs (o : nat -> order) (e : ecall N) : call_ok pp e -> psafe (sh pp) (fun _ => True) (code pp crs o e).
  Proof.
    intros C. destruct e as [c k rk|c k h rk|c ck]; cbn [code call_ok] in *; [apply RotateNew_safe|apply RotateHoistedNew_safe|apply ConjugateNew_safe]; trivial. apply good_fits. apply C.
  Qed.
End Ckks.

(** *** The theorems: mkckks *)
(** whatever other goroutines did on an Evaluator before (calls cut off in the middle included), a call that nobody disturbs on its Evaluator returns what it returns with buffers of its own,
    after a number of its own steps that does not depend on what the goroutines with other Evaluators do meanwhile, and nothing that happens later changes the result *)
Theorem C69_exclusive : forall N pp (crs : crsT N) ts xs sch1 i k o e, wfp N pp -> ready pp crs ts xs -> nth_error ts i = Some (k, code pp crs o e) -> (k < length xs)%nat ->
  (forall n, order_ok (o n)) -> call_ok pp e -> ~ In i sch1 ->
  exists m, forall sch2, exclusive sch2 ts i k ->
    (forall x, returned (sch1 ++ sch2) ts xs i = Some x -> x = pure_result pp crs o e) /\
    ((m <= count_occ Nat.eq_dec sch2 i)%nat -> forall sch3, returned ((sch1 ++ sch2) ++ sch3) ts xs i = Some (pure_result pp crs o e)).
Proof.
  intros N pp crs ts xs sch1 i k o e WF [HT HX] Ei LK O C NI. apply (undisturbed (sh pp) ts xs sch1 i k (code pp crs o e)); trivial.
  - intros j kj pj Ej. destruct (HT _ _ Ej) as (k' & o' & e' & E & _ & C'). assert (pj = code pp crs o' e') by congruence. subst pj. apply (code_safe pp WF). exact C'.
  - apply (code_gives pp WF); assumption.
Qed.
(** goroutines with an Evaluator each: every call returns what it returns alone, in every schedule; keys, ciphertexts and hoisted forms may be shared *)
Corollary C69_own_evaluators : forall N pp (crs : crsT N) ts xs i k o e, wfp N pp -> ready pp crs ts xs -> nth_error ts i = Some (k, code pp crs o e) -> (k < length xs)%nat ->
  (forall n, order_ok (o n)) -> call_ok pp e -> (forall j kj pj, nth_error ts j = Some (kj, pj) -> kj = k -> j = i) ->
  exists m, forall sch, (forall x, returned sch ts xs i = Some x -> x = pure_result pp crs o e) /\ ((m <= count_occ Nat.eq_dec sch i)%nat -> returned sch ts xs i = Some (pure_result pp crs o e)).
Proof.
  intros N pp crs ts xs i k o e WF RD Ei LK O C OWN. destruct (C69_exclusive N pp crs ts xs nil i k o e WF RD Ei LK O C (fun H => H)) as (m & H). exists m. intros sch.
  destruct (H sch) as [H1 H2]; [intros j kj pj _ Ej; destruct (Nat.eq_dec j i); [left; assumption|right; intros EK; apply n; apply (OWN _ _ _ Ej EK)]|]. cbn [app] in H1, H2. split; [exact H1|]. intros L. specialize (H2 L nil). rewrite app_nil_r in H2. exact H2.
Qed.
(** *** mkbfv: RotateNew and ConjugateNew *)
Inductive bcall (N : nat) := BRotate (c : ctT N) (k : Z) (rk : rotset N) | BConjugate (c : ctT N) (ck : conjset N).
Arguments BRotate {N} c k rk. Arguments BConjugate {N} c ck.
Definition bcode {N} b (crs : crsT N) (o : nat -> order) (e : bcall N) : proc (kst N) (ctT N) :=
  match e with BRotate c k rk => bRotateNewP b o crs c k rk | BConjugate c ck => bConjugateNewP b (o 0%nat) crs c ck end.
Definition bpure_result {N} (b : bparams) (crs : crsT N) (o : nat -> order) (e : bcall N) : res (ctT N) :=
  match e with BRotate c k rk => bRotateNew (ppQ b) o crs c k rk | BConjugate c ck => bConjugateNew (ppQ b) (o 0%nat) crs c ck end.
Definition bready {N} (b : bparams) (crs : crsT N) (ts : list (nat * proc (kst N) (ctT N))) (xs : list (kst N)) : Prop :=
  (forall j t, nth_error ts j = Some t -> exists k o e, t = (k, bcode b crs o e)) /\ forall k s, nth_error xs k = Some s -> sh (ppQ b) s.
Theorem C69_bfv : forall N b (crs : crsT N) ts xs sch1 i k o e, wfb N b -> bready b crs ts xs -> nth_error ts i = Some (k, bcode b crs o e) -> (k < length xs)%nat ->
  (forall n, order_ok (o n)) -> ~ In i sch1 ->
  exists m, forall sch2, exclusive sch2 ts i k ->
    (forall x, returned (sch1 ++ sch2) ts xs i = Some x -> x = bpure_result b crs o e) /\
    ((m <= count_occ Nat.eq_dec sch2 i)%nat -> forall sch3, returned ((sch1 ++ sch2) ++ sch3) ts xs i = Some (bpure_result b crs o e)).
Proof.
  intros N b crs ts xs sch1 i k o e WB [HT HX] Ei LK O NI. assert (WF : wfp N (ppQ b)) by exact (wf_ppQ b WB). apply (undisturbed (sh (ppQ b)) ts xs sch1 i k (bcode b crs o e)); trivial.
  - intros j kj pj Ej. destruct (HT _ _ Ej) as (k' & o' & e' & E). assert (pj = bcode b crs o' e') by congruence. subst pj. destruct e'; [apply bRotateNew_safe|apply bConjugateNew_safe]; exact WF.
  - destruct e as [c r rk|c ck]; cbn [bcode bpure_result].
    + apply (gives_sol (sh (ppQ b)) _ _ (KsPoolProofs.same (ppQ b))); [intros a sb [H _]; exact H|]. intros s Hs. apply (bRotateNewP_sim b WF); trivial.
    + apply (gives_sol (sh (ppQ b)) _ _ (KsPoolProofs.same (ppQ b))); [intros a sb [H _]; exact H|]. intros s Hs. apply (bConjugateNewP_sim b WF); trivial.
Qed.

(** ** One Evaluator for two goroutines *)
Lemma psched_alone {T A} (p q u : proc T A) s s' : reach p s q s' -> exists sch, psched sch [(0%nat, p); (0%nat, u)] [s] = ([(0%nat, q); (0%nat, u)], [s']).
Proof.
  intros [m H]. revert p s H. induction m as [|m IH]; intros p s H; cbn [psolo fst snd] in H; [injection H as <- <-; exists nil; reflexivity|].
  destruct (pexec p s) as [p1 s1] eqn:E. destruct (IH _ _ H) as [sch K]. exists (0%nat :: sch). cbn [psched nth_error set_nth]. rewrite E. exact K.
Qed.
Lemma psched_alone1 {T A} (p q u : proc T A) s s' : reach p s q s' -> exists sch, psched sch [(0%nat, u); (0%nat, p)] [s] = ([(0%nat, u); (0%nat, q)], [s']).
Proof.
  intros [m H]. revert p s H. induction m as [|m IH]; intros p s H; cbn [psolo fst snd] in H; [injection H as <- <-; exists nil; reflexivity|].
  destruct (pexec p s) as [p1 s1] eqn:E. destruct (IH _ _ H) as [sch K]. exists (1%nat :: sch). cbn [psched nth_error set_nth]. rewrite E. exact K.
Qed.
(** an amount one rotation key is enough for: its residue is not 0 and the CRS has an entry for it *)
Definition one_rotation {N} (crs : crsT N) (k : Z) : Prop := let r := k mod Z.of_nat (N / 2) in r <> 0 /\ mget Z.eq_dec crs r <> None.
Section Race.
  Context {N : nat} (pp : rparams) (WF : wfp N pp).
  (** RotateNew up to the loop that permutes the components of its output *)
  Lemma RotateNew_reach crs (o : nat -> order) (c : ckct N) k rk s r level : (forall n, order_ok (o n)) -> sh pp s -> ctLevel (cv c) = Ok level -> (level < length (Qm pp))%nat -> one_rotation crs k ->
    RotateNew pp o crs c k rk = Ok r ->
    exists kk c1 s1 s2, reach (RotateNewP pp o crs c k rk) s (pbind (permLoop pp level (galEl N kk) (o 0%nat 2%nat (keys (cv c))) c1) (fun v => Ret (CK v (csc c)))) s1 /\
      psol (permLoop pp level (galEl N kk) (o 0%nat 2%nat (keys (cv c))) c1) s1 = Ok (s2, cv r) /\ csc r = csc c /\ sh pp s1 /\ rowsAre (S level) c1 /\ mwf c1 /\ forall x, mget seq_dec c1 x <> None <-> In x (keys (cv c)).
  Proof.
    intros O SH EL HL [NZ CR] E. pose proof (RotateNewSt_sim pp WF o crs s c k rk O SH) as SIM. rewrite E in SIM. assert (FT : fits pp (cv c)) by (intros l El; congruence). specialize (SIM FT). rewrite <- RotateNewP_sol in SIM. revert SIM.
    unfold RotateNewP. rewrite psol_pb. destruct (IDSetOf_ok (o 0%nat 1%nat) (cv c) (fun l => O 0%nat 1%nat l)) as (ids & EI & _ & HI). rewrite EI. cbn [rbind pres pbind]. rewrite psol_pb, EL. cbn [rbind pres pbind].
    rewrite psol_pb. rewrite rotNorm_ok by apply (wf_N _ _ WF). cbn [rbind pres pbind]. destruct (Z.eqb_spec (k mod Z.of_nat (N / 2)) 0); [contradiction|].
    destruct (mget Z.eq_dec crs (k mod Z.of_nat (N / 2))) as [a|]; [|congruence]. set (out := NewCiphertext (o 0%nat 2%nat) ids level). set (p := RotateP _ _ _ _ _ _ _ _).
    assert (U : uniform pp out) by (apply (@New_uniform N pp); exact HL).
    rewrite psol_bind. destruct (psol p s) as [[s2 v]|] eqn:EP; cbn [rbind rsim]; [|intros []]. rewrite psol_ret. unfold ksame. cbn [fst snd]. intros [ER _]. subst r. cbn [cv csc].
    destruct (C03_new_ciphertext N pp (o 0%nat 2%nat) ids level WF (fun l => O 0%nat 2%nat l) HL) as (W1 & K1 & L2 & _). fold out in W1, K1, L2.
    destruct (rotate_reach pp WF (o 0%nat) crs None (cv c) _ rk out s s2 v U (proj1 W1) SH EP) as (lv & kk & c1 & s1 & L1 & R1 & P1 & S1 & RA & DM).
    assert (lv = level) by congruence. subst lv.
    exists kk, c1, s1, s2. split; [apply R1|]. split; [exact P1|]. split; [reflexivity|]. split; [exact S1|]. split; [exact RA|]. destruct DM as [MC DM]. split; [exact MC|].
    intros x. specialize (DM x). assert (MX : mget seq_dec c1 x <> None <-> mget seq_dec out x <> None) by tauto. rewrite MX, (mget_In_keys seq_dec). rewrite K1.
    assert (I0 : In id0 (keys (cv c))) by (apply (mget_In_keys seq_dec); unfold ctLevel, cget in EL; destruct (mget seq_dec (cv c) id0); [discriminate|discriminate]).
    specialize (HI x). unfold is_has, mhas in HI. split.
    - intros [->|I]; [exact I0|]. apply (mget_In_keys seq_dec) in I. destruct (mget seq_dec ids x); [|congruence]. apply HI. reflexivity.
    - intros I. destruct (seq_dec x id0) as [->|NE]; [left; reflexivity|]. right. apply (mget_In_keys seq_dec). destruct (mget seq_dec ids x); [discriminate|]. assert (false = true) by (apply HI; split; assumption). discriminate.
  Qed.
End Race.
(** two RotateNew calls on one Evaluator, of ciphertexts of the same parties and level, that both succeed on their own: in some schedule the first returns the second's rotated ciphertext, with its own scale,
    and the second returns its own *)
Theorem C69_returns_other : forall N pp (crs : crsT N) (oA oB : nat -> order) (cA cB : ckct N) kA kB rkA rkB s rA rB level, wfp N pp -> (forall n, order_ok (oA n)) -> (forall n, order_ok (oB n)) -> sh pp s ->
  mwf (cv cA) -> ctLevel (cv cA) = Ok level -> ctLevel (cv cB) = Ok level -> (level < length (Qm pp))%nat -> oA 0%nat 2%nat (keys (cv cA)) = oB 0%nat 2%nat (keys (cv cB)) -> one_rotation crs kA -> one_rotation crs kB ->
  RotateNew pp oA crs cA kA rkA = Ok rA -> RotateNew pp oB crs cB kB rkB = Ok rB ->
  exists sch v, let ts := [(0%nat, code pp crs oA (CRotate cA kA rkA)); (0%nat, code pp crs oB (CRotate cB kB rkB))] in
    returned sch ts [s] 0 = Some (Ok (CK v (csc cA))) /\ mwf v /\ same_ct v (cv rB) /\ returned sch ts [s] 1 = Some (Ok rB).
Proof.
  intros N pp crs oA oB cA cB kA kB rkA rkB s rA rB level WF OA OB SH MW LA LB HL EO KA KB EA EB. cbv zeta. cbn [code].
  destruct (RotateNew_reach pp WF crs oA cA kA rkA s rA level OA SH LA HL KA EA) as (ka & dA & s1 & s1' & RA & _ & _ & S1 & WA & MA & DA).
  destruct (RotateNew_reach pp WF crs oB cB kB rkB s1 rB level OB S1 LB HL KB EB) as (kb & dB & s2 & s2' & RB & PB & CB & S2 & WB & _ & DB).
  set (l := oA 0%nat 2%nat (keys (cv cA))) in *. rewrite <- EO in RB, PB.
  assert (PL : Permutation l (keys (cv cA))) by (apply OA).
  assert (PL' : Permutation l (keys (cv cB))) by (rewrite EO; apply OB).
  destruct (psched_alone _ _ (RotateNewP pp oB crs cB kB rkB) s s1 RA) as [sch1 P1]. set (pA := pbind _ _) in P1, RA.
  destruct (psched_alone1 _ _ pA s1 s2 RB) as [sch2 P2].
  destruct (interleave pp WF level ka kb (fun v => Ret (CK v (csc cA))) (fun v => Ret (CK v (csc cB))) HL l dA dB s2 s2 s2' (cv rB)) as (sch3 & v & s3 & P3 & H1 & H2 & H3); trivial.
  { apply (Permutation_NoDup (Permutation_sym PL)). exact MW. }
  { intros x Hx. apply DA. apply (Permutation_in _ PL). exact Hx. }
  exists ((sch1 ++ sch2) ++ sch3), v. unfold returned. rewrite psched_app, (psched_app sch1), P1. cbn [fst snd]. rewrite P2. cbn [fst snd]. unfold pA. rewrite P3. cbn [fst nth_error outcome].
  split; [reflexivity|]. split; [apply H3; exact MA|]. split; [|rewrite <- CB; destruct rB; reflexivity].
  intros x. destruct (in_dec string_dec x l) as [I|NI]; [apply H1; exact I|]. destruct (H2 x NI) as [-> ->].
  assert (XA : mget seq_dec dA x = None) by (destruct (mget seq_dec dA x) eqn:E; [|reflexivity]; exfalso; apply NI; apply (Permutation_in _ (Permutation_sym PL)); apply DA; congruence).
  assert (XB : mget seq_dec dB x = None) by (destruct (mget seq_dec dB x) eqn:E; [|reflexivity]; exfalso; apply NI; apply (Permutation_in _ (Permutation_sym PL')); apply DB; congruence).
  congruence.
Qed.
Print Assumptions C69_returns_other.

Lemma ones_pow2 t : 0 <= t -> ones (2 ^ t) = 1.
Proof. intros H. revert t H. apply natlike_ind; [reflexivity|]. intros t H IH. rewrite Z.pow_succ_r by exact H. rewrite ones_even by (apply Z.pow_nonneg; lia). exact IH. Qed.
(** with the default CRS and default rotation keys: two goroutines that rotate the same ciphertext by different powers of two (modulo N/2) on one Evaluator; in some schedule the one that asked for kA gets a ciphertext
    of the same parties whose slots are shifted by kB, with no error *)
Theorem C69_wrong_rotation : forall N pp logN (u : Z -> nat -> polyQP N) (o : nat -> order) (c : ckct N) kA kB rk (s : string -> R N) B T level st,
  wfp N pp -> (forall n, order_ok (o n)) -> small_ok pp B -> N = (2 ^ logN)%nat -> (0 < logN)%nat ->
  (forall i j, default_index N i -> (j < beta pp (maxLevel pp))%nat -> wordsQP pp (u i j)) -> (level < length (Qm pp))%nat -> wfct pp level false (cv c) ->
  (forall i id, default_index N i -> In id (parties (cv c)) -> has_rot_key pp (NewCRS pp logN u) rk i B T id (s id)) -> sh pp st ->
  default_index N (kA mod Z.of_nat (N / 2)) -> default_index N (kB mod Z.of_nat (N / 2)) ->
  exists sch v E, returned sch [(0%nat, code pp (NewCRS pp logN u) o (CRotate c kA rk)); (0%nat, code pp (NewCRS pp logN u) o (CRotate c kB rk))] [st] 0 = Some (Ok (CK v (csc c))) /\
    (forall x, In x (keys v) <-> In x (keys (cv c))) /\ bnd E (Z.of_nat (length (parties (cv c))) * switch_noise N pp level (dig_bound pp level) B T) /\
    forall m, decrypts pp s (cv c) level m -> exists m', decrypts pp s v level (add m' E) /\
      forall j, (j < N / 2)%nat -> ckks_slot m' j = ckks_slot m (Z.to_nat ((Z.of_nat j + kB) mod Z.of_nat (N / 2))).
Proof.
  intros N pp logN u o c kA kB rk s B T level st WF O SM EN HL HU LV W HK SH DA DB. pose proof (wfct_level pp level false _ W) as EL.
  destruct (C23_default N pp logN u o c kA rk s B T level WF O SM EN HL HU LV W HK) as (vA & EA & A1 & _).
  destruct (C23_default N pp logN u o c kB rk s B T level WF O SM EN HL HU LV W HK) as (vB & EB & B1 & WB & B2 & B3 & B4).
  set (crs := NewCRS pp logN u) in *.
  assert (ONE : forall k, default_index N (k mod Z.of_nat (N / 2)) -> one_rotation crs k).
  { intros k D. pose proof D as (t & T0 & T1 & T2). split; [rewrite T1; apply Z.pow_nonzero; lia|]. apply (mget_In_keys Z.eq_dec). apply (proj2 (proj1 (C04_crs_indices N pp logN u _ HL))). right. rewrite <- EN. exact D. }
  destruct (C69_returns_other N pp crs o o c c kA kB rk rk st _ _ level WF O O SH (proj1 W) EL EL LV eq_refl (ONE _ DA) (ONE _ DB) A1 B1) as (sch & v & R1 & MV & SC & _). cbn [cv] in SC.
  exists sch, v, EB. split; [exact R1|].
  split; [intros x; rewrite <- B2, <- !(mget_In_keys seq_dec), SC; tauto|].
  split.
  { destruct DB as (t & T0 & T1 & T2). rewrite T1 in B3. rewrite ones_pow2 in B3 by exact T0. rewrite Z.mul_1_l in B3. exact B3. }
  intros m D. destruct (B4 m D) as (m' & D' & S'). exists m'. split; [|exact S']. intros j Hj. rewrite (phase_ext pp s v vB j MV (proj1 WB) SC). apply D'. exact Hj.
Qed.
Print Assumptions C69_wrong_rotation.

(** ** The hypotheses can be met: N = 8, default CRS and keys, a ciphertext of two parties, RotateNew by 1 and by 2 *)
Example C69_nonvacuous : exists (c : ckct 8) (rk : rotset 8) (ck : conjset 8), let o := fun _ : nat => ex_ord in let new := NewKeySwitcher ex_pp in
  parties (cv c) = ["alice"; "bob"]%string /\
  (* two goroutines that share Evaluator 0 and one with an Evaluator of its own *)
  ready ex_pp ex_crs [(0%nat, code ex_pp ex_crs o (CRotate c 1 rk)); (0%nat, code ex_pp ex_crs o (CRotate c 2 rk)); (1%nat, code ex_pp ex_crs o (CConjugate c ck))] [new; new] /\
  (exists r, pure_result ex_pp ex_crs o (CRotate c 1 rk) = Ok r) /\ (exists r, pure_result ex_pp ex_crs o (CRotate c 2 rk) = Ok r) /\
  exists sch v E, returned sch [(0%nat, code ex_pp ex_crs o (CRotate c 1 rk)); (0%nat, code ex_pp ex_crs o (CRotate c 2 rk))] [new] 0 = Some (Ok (CK v (csc c))) /\
    bnd E (Z.of_nat (length (parties (cv c))) * switch_noise 8 ex_pp 2 (dig_bound ex_pp 2) 3 1) /\
    forall m, decrypts ex_pp (fun _ => ex_s) (cv c) 2 m -> exists m', decrypts ex_pp (fun _ => ex_s) v 2 (add m' E) /\ forall j, (j < 4)%nat -> ckks_slot m' j = ckks_slot m (Z.to_nat ((Z.of_nat j + 2) mod 4)).
Proof.
  destruct C23_nonvacuous as (c & rk & W & P & EN & HU & HK & _). exists c, rk, nil. cbv zeta. split; [exact P|].
  assert (O : forall n : nat, order_ok ((fun _ : nat => ex_ord) n)) by (intros; apply ex_ord_ok).
  assert (EL : ctLevel (cv c) = Ok 2%nat) by (apply (wfct_level ex_pp 2 false); exact W).
  assert (LV : (2 < length (Qm ex_pp))%nat) by (cbn; lia).
  assert (FT : fits ex_pp (cv c)) by (intros l E; assert (l = 2%nat) by congruence; subst l; exact LV).
  assert (SN : sh ex_pp (NewKeySwitcher (N := 8) ex_pp)) by apply sh_new.
  assert (D1 : default_index 8 (1 mod Z.of_nat (8 / 2))) by (exists 0; split; [lia|split; reflexivity]).
  assert (D2 : default_index 8 (2 mod Z.of_nat (8 / 2))) by (exists 1; split; [lia|split; reflexivity]).
  split; [split|split; [|split]].
  - intros j t E. destruct j as [|[|[|j]]]; cbn [nth_error] in E; [..|destruct j; discriminate].
    + exists 0%nat, (fun _ => ex_ord), (CRotate c 1 rk). split; [congruence|]. split; [exact O|exact FT].
    + exists 0%nat, (fun _ => ex_ord), (CRotate c 2 rk). split; [congruence|]. split; [exact O|exact FT].
    + exists 1%nat, (fun _ => ex_ord), (CConjugate c nil). split; [congruence|]. split; [exact O|exact FT].
  - intros k s E. destruct k as [|[|k]]; cbn [nth_error] in E; [..|destruct k; discriminate]; (assert (EZ : NewKeySwitcher (N := 8) ex_pp = s) by congruence); rewrite <- EZ; exact SN.
  - destruct (C23_default 8 ex_pp 3 ex_u (fun _ => ex_ord) c 1 rk (fun _ => ex_s) 3 1 2 ex_wf O ex_small EN ltac:(lia) HU LV W HK) as (v & E & A & _). exists (CK v (csc c)). exact A.
  - destruct (C23_default 8 ex_pp 3 ex_u (fun _ => ex_ord) c 2 rk (fun _ => ex_s) 3 1 2 ex_wf O ex_small EN ltac:(lia) HU LV W HK) as (v & E & A & _). exists (CK v (csc c)). exact A.
  - destruct (C69_wrong_rotation 8 ex_pp 3 ex_u (fun _ => ex_ord) c 1 2 rk (fun _ => ex_s) 3 1 2 (NewKeySwitcher ex_pp) ex_wf O ex_small EN ltac:(lia) HU LV W HK SN D1 D2) as (sch & v & E & R1 & _ & B1 & D).
    exists sch, v, E. split; [exact R1|]. split; [exact B1|]. exact D.
Qed.
Example C69_bfv_nonvacuous : let o := fun _ : nat => ex_ord in let new := NewKeySwitcher (N := 8) (ppQ exb) in
  let c : ctT 8 := NewCiphertext (fun l => l) ex_ids (maxLevel (ppQ exb)) in
  wfb 8 exb /\ parties c = ["alice"; "bob"]%string /\ bready exb ex_crs [(0%nat, bcode exb ex_crs o (BRotate c 1 nil)); (1%nat, bcode exb ex_crs o (BRotate c 4 nil))] [new; new] /\
  bpure_result exb ex_crs o (BRotate c 4 nil) <> Panic.
Proof.
  cbv zeta. split; [exact exb_wf|]. split; [reflexivity|]. split; [split|].
  - intros j t E. destruct j as [|[|j]]; cbn [nth_error] in E; [..|destruct j; discriminate].
    + exists 0%nat, (fun _ => ex_ord), (BRotate (NewCiphertext (fun l => l) ex_ids (maxLevel (ppQ exb))) 1 nil). congruence.
    + exists 1%nat, (fun _ => ex_ord), (BRotate (NewCiphertext (fun l => l) ex_ids (maxLevel (ppQ exb))) 4 nil). congruence.
  - intros k s E. assert (SN : sh (ppQ exb) (NewKeySwitcher (N := 8) (ppQ exb))) by apply sh_new. destruct k as [|[|k]]; cbn [nth_error] in E; [..|destruct k; discriminate]; (assert (EZ : NewKeySwitcher (N := 8) (ppQ exb) = s) by congruence); rewrite <- EZ; exact SN.
  - unfold bpure_result, bRotateNew, bRotate. rewrite rotNorm_ok by lia. vm_compute. discriminate.
Qed.
