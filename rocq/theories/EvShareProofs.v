(** Proofs about calls cut into steps (EvShare.v). *)
From Flocq Require Import Core BinarySingleNaN.
From Verif Require Import Base IdSetModel KeySetModel NumTheory Negacyclic Ntt Word FloatModel BasisExt BasisExtProofs Rows RlweModel KeyGenModel Galois SchemeSpec CtModel CtSpec CtProofs EncDecProofs KeySwitchModel CkksModel BfvModel KsPool KsPoolProofs EvalPool EvalPoolProofs BfvMulModel BfvPool ShareModel PropsShare EvShare.
Open Scope Z_scope.

Lemma proc_induct {T A} (P : proc T A -> Prop) : (forall a, P (Ret a)) -> P Fail -> (forall f, (forall s, P (snd (f s))) -> P (Atom f)) -> forall p, P p.
Proof. intros HR HF HA. fix IH 1. intros [a| |f]; [apply HR|exact HF|]. apply HA. intros s. destruct (f s) as [s' p']. exact (IH p'). Qed.
Section Proc.
  Context {T : Type}.
  (** *** running a call alone *)
  Fixpoint prun {A} (p : proc T A) (s : T) : T * res A :=
    match p with Ret a => (s, Ok a) | Fail => (s, Panic) | Atom f => let '(s', p') := f s in prun p' s' end.
  Fixpoint psteps {A} (p : proc T A) (s : T) : nat := match p with Atom f => let '(s', p') := f s in S (psteps p' s') | _ => 0 end.
  Definition psol {A} (p : proc T A) (s : T) : res (T * A) := let '(s', r) := prun p s in match r with Ok a => Ok (s', a) | Panic => Panic end.
  Lemma psol_bind {A B} (p : proc T A) (f : A -> proc T B) s : psol (pbind p f) s = ('(s, a) <- psol p s ;; psol (f a) s).
  Proof.
    unfold psol. revert s. induction p as [a| |g IH] using proc_induct; intros s; cbn [pbind prun rbind]; [reflexivity..|]. destruct (g s) as [s' p'] eqn:E. specialize (IH s). rewrite E in IH. cbn [snd] in IH. apply IH.
  Qed.
  Lemma psol_ret {A} (a : A) s : psol (Ret a) s = Ok (s, a). Proof. reflexivity. Qed.
  Lemma psol_fail {A} s : psol (@Fail T A) s = Panic. Proof. reflexivity. Qed.
  Lemma psol_pres {A} (r : res A) s : psol (pres r) s = (a <- r ;; Ok (s, a)). Proof. destruct r; reflexivity. Qed.
  Lemma psol_act {A} (f : T -> res (T * A)) s : psol (act f) s = f s.
  Proof. unfold psol, act. cbn [prun]. destruct (f s) as [[s' a]|]; reflexivity. Qed.
  Lemma psol_fold {A B} (f : A -> B -> proc T A) l : forall a s, psol (pfold f l a) s = rfold (fun '(s, a) x => psol (f a x) s) l (s, a).
  Proof. induction l as [|x l IH]; intros a s; cbn [pfold rfold]; [reflexivity|]. rewrite psol_bind. destruct (psol (f a x) s) as [[s' a']|]; cbn [rbind]; [apply IH|reflexivity]. Qed.

  (** *** what every step keeps *)
  Fixpoint psafe (I : T -> Prop) {A} (Q : A -> Prop) (p : proc T A) : Prop :=
    match p with Ret a => Q a | Fail => True | Atom f => forall s, I s -> let '(s', p') := f s in I s' /\ psafe I Q p' end.
  Lemma psafe_bind (I : T -> Prop) {A B} (Q : A -> Prop) (Q' : B -> Prop) p f : psafe I Q p -> (forall a, Q a -> psafe I Q' (f a)) -> psafe I Q' (pbind p f).
  Proof.
    intros H F. induction p as [a| |g IH] using proc_induct; cbn [pbind psafe] in *; [apply F; exact H|exact Logic.I|]. intros s Hs. specialize (H s Hs). specialize (IH s). destruct (g s) as [s' p']. cbn [snd] in *. destruct H as [H1 H2]. split; [exact H1|]. apply IH. exact H2.
  Qed.
  Lemma psafe_pres (I : T -> Prop) {A} (Q : A -> Prop) r : (forall a, r = Ok a -> Q a) -> psafe I Q (pres r).
  Proof. destruct r; cbn; intros H; [apply H; reflexivity|exact Logic.I]. Qed.
  Lemma psafe_act (I : T -> Prop) {A} (Q : A -> Prop) (f : T -> res (T * A)) : (forall s s' a, I s -> f s = Ok (s', a) -> I s' /\ Q a) -> psafe I Q (act f).
  Proof. intros H s Hs. cbn. destruct (f s) as [[s' a]|] eqn:E; cbn [psafe]; [apply (H s s' a Hs E)|split; [exact Hs|exact Logic.I]]. Qed.
  Lemma psafe_fold (I : T -> Prop) {A B} (Q : A -> Prop) (f : A -> B -> proc T A) l a : Q a -> (forall a x, In x l -> Q a -> psafe I Q (f a x)) -> psafe I Q (pfold f l a).
  Proof. revert a. induction l as [|x l IH]; intros a Ha H; cbn [pfold psafe]; [exact Ha|]. apply (psafe_bind I Q); [apply H; [left; reflexivity|exact Ha]|]. intros a' Ha'. apply IH; [exact Ha'|]. intros; apply H; [right; assumption|assumption]. Qed.
  Lemma psafe_weak (I : T -> Prop) {A} (Q Q' : A -> Prop) p : (forall a, Q a -> Q' a) -> psafe I Q p -> psafe I Q' p.
  Proof. intros W. induction p as [a| |g IH] using proc_induct; cbn [psafe]; [apply W|trivial|]. intros H s Hs. specialize (H s Hs). specialize (IH s). destruct (g s) as [s' p']. cbn [snd] in IH. destruct H. split; [assumption|apply IH; assumption]. Qed.

  (** *** schedules *)
  Context {A : Type}.
  Notation thr := (nat * proc T A)%type.
  Fixpoint psolo (m : nat) (ps : proc T A * T) : proc T A * T := match m with O => ps | S m => psolo m (pexec (fst ps) (snd ps)) end.
  Definition ended (p : proc T A) : Prop := match p with Atom _ => False | _ => True end.
  Definition outcome (p : proc T A) : option (res A) := match p with Ret a => Some (Ok a) | Fail => Some Panic | Atom _ => None end.
  Lemma psolo_add m k ps : psolo (m + k) ps = psolo k (psolo m ps).
  Proof. revert ps. induction m as [|m IH]; intros ps; cbn; [reflexivity|apply IH]. Qed.
  Lemma psolo_end m p s : outcome p <> None -> psolo m (p, s) = (p, s).
  Proof. intros H. induction m as [|m IH]; cbn [psolo fst snd]; [reflexivity|]. destruct p; cbn in H; [exact IH|exact IH|congruence]. Qed.
  Lemma psolo_same m k p s r : outcome (fst (psolo m (p, s))) = Some r -> psolo (m + k) (p, s) = psolo m (p, s).
  Proof. intros H. rewrite psolo_add. destruct (psolo m (p, s)) as [p' s']. cbn in H. apply psolo_end. congruence. Qed.
  Lemma psolo_all p : forall s, psolo (psteps p s) (p, s) = (match snd (prun p s) with Ok a => Ret a | Panic => Fail end, fst (prun p s)).
  Proof. induction p as [a| |g IH] using proc_induct; intros s; cbn [psteps prun]; [reflexivity..|]. specialize (IH s). destruct (g s) as [s' p'] eqn:E. cbn [snd] in IH. cbn [psolo fst snd pexec]. rewrite E. apply IH. Qed.
  Lemma psched_app s1 s2 (ts : list thr) xs : psched (s1 ++ s2) ts xs = psched s2 (fst (psched s1 ts xs)) (snd (psched s1 ts xs)).
  Proof.
    revert ts xs. induction s1 as [|i s1 IH]; intros ts xs; cbn; [reflexivity|]. destruct (nth_error ts i) as [[k p]|]; [|apply IH]. destruct (nth_error xs k) as [s|]; [|apply IH]. destruct (pexec p s). apply IH.
  Qed.
  Lemma psched_other sch i : ~ In i sch -> forall (ts : list thr) xs, nth_error (fst (psched sch ts xs)) i = nth_error ts i.
  Proof.
    induction sch as [|j sch IH]; intros NI ts xs; cbn [psched]; [reflexivity|]. cbn in NI. destruct (nth_error ts j) as [[k p]|]; [|apply IH; tauto]. destruct (nth_error xs k) as [s|]; [|apply IH; tauto].
    destruct (pexec p s) as [p' s']. rewrite IH by tauto. rewrite nth_set. destruct (Nat.eqb_spec j i); [tauto|reflexivity].
  Qed.
  Lemma psched_obj sch : forall (ts : list thr) xs j, option_map fst (nth_error (fst (psched sch ts xs)) j) = option_map fst (nth_error ts j).
  Proof.
    induction sch as [|i sch IH]; intros ts xs j; cbn [psched]; [reflexivity|]. destruct (nth_error ts i) as [[k p]|] eqn:Et; [|apply IH]. destruct (nth_error xs k) as [s|]; [|apply IH].
    destruct (pexec p s) as [p' s']. rewrite IH, nth_set. destruct (Nat.eqb_spec i j) as [->|]; [rewrite Et; reflexivity|reflexivity].
  Qed.
  Lemma psched_ended sch i : forall (ts : list thr) xs k p, nth_error ts i = Some (k, p) -> outcome p <> None -> nth_error (fst (psched sch ts xs)) i = Some (k, p).
  Proof.
    induction sch as [|j sch IH]; intros ts xs k p E H; cbn [psched]; [exact E|]. destruct (nth_error ts j) as [[k' p']|] eqn:Ej; [|apply IH; assumption]. destruct (nth_error xs k') as [s|]; [|apply IH; assumption].
    destruct (pexec p' s) as [p2 s2] eqn:EX. apply IH; [|exact H]. rewrite nth_set. destruct (Nat.eqb_spec j i) as [->|]; [|exact E]. rewrite Ej. rewrite E in Ej. injection Ej as <- <-. destruct p; cbn in H, EX; [congruence..|]. congruence.
  Qed.
  (** a goroutine that is alone on its object while [sch] runs *)
  Lemma psched_excl sch i : forall (ts : list thr) xs k p s, nth_error ts i = Some (k, p) -> nth_error xs k = Some s ->
    (forall j kj pj, In j sch -> nth_error ts j = Some (kj, pj) -> j = i \/ kj <> k) ->
    nth_error (fst (psched sch ts xs)) i = Some (k, fst (psolo (count_occ Nat.eq_dec sch i) (p, s))) /\ nth_error (snd (psched sch ts xs)) k = Some (snd (psolo (count_occ Nat.eq_dec sch i) (p, s))).
  Proof.
    induction sch as [|j sch IH]; intros ts xs k p s Et Ek H; cbn [psched count_occ]; [split; assumption|].
    destruct (Nat.eq_dec j i) as [->|NE].
    - rewrite Et, Ek. cbn [psolo fst snd]. destruct (pexec p s) as [p' s'] eqn:EX. apply IH.
      + rewrite nth_set, Nat.eqb_refl, Et. reflexivity.
      + rewrite nth_set, Nat.eqb_refl, Ek. reflexivity.
      + intros j kj pj Hj. rewrite nth_set. destruct (Nat.eqb_spec i j) as [->|NE]; [auto|]. intros Etj. apply (H j kj pj (or_intror Hj) Etj).
    - destruct (nth_error ts j) as [[ku u]|] eqn:Eu; [|apply IH; trivial; intros; eapply H; [right; eassumption|eassumption]].
      destruct (H j ku u (or_introl eq_refl) Eu) as [C|NS]; [congruence|].
      destruct (nth_error xs ku) as [su|]; [|apply IH; trivial; intros; eapply H; [right; eassumption|eassumption]].
      destruct (pexec u su) as [u' su']. apply IH.
      + rewrite nth_set. destruct (Nat.eqb_spec j i); [congruence|exact Et].
      + rewrite nth_set. destruct (Nat.eqb_spec ku k); [congruence|exact Ek].
      + intros j' kj pj Hj. rewrite nth_set. destruct (Nat.eqb_spec j j') as [<-|NE']; [rewrite Eu; intros E; injection E as <- <-; right; exact NS|]. intros Etj. apply (H j' kj pj (or_intror Hj) Etj).
  Qed.
  (** the invariant of the objects survives every schedule *)
  Lemma psched_safe (I : T -> Prop) sch : forall (ts : list thr) xs, (forall j k p, nth_error ts j = Some (k, p) -> psafe I (fun _ => True) p) -> (forall k s, nth_error xs k = Some s -> I s) ->
    forall k s, nth_error (snd (psched sch ts xs)) k = Some s -> I s.
  Proof.
    induction sch as [|i sch IH]; intros ts xs HT HX; cbn [psched]; [exact HX|]. destruct (nth_error ts i) as [[k p]|] eqn:Ei; [|apply IH; assumption]. destruct (nth_error xs k) as [s|] eqn:Ek; [|apply IH; assumption].
    destruct (pexec p s) as [p' s'] eqn:EX.
    assert (G : psafe I (fun _ => True) p' /\ I s').
    { pose proof (HT _ _ _ Ei) as HP. pose proof (HX _ _ Ek) as HS. destruct p as [a| |f]; cbn [pexec] in EX; [injection EX as <- <-; split; assumption..|]. cbn [psafe] in HP. specialize (HP s HS). destruct (f s) as [s2 p2]. injection EX as <- <-. tauto. }
    apply IH.
    - intros j kj pj. rewrite nth_set. destruct (Nat.eqb_spec i j) as [->|]; [rewrite Ei; intros E; injection E as <- <-; apply G|apply HT].
    - intros j sj. rewrite nth_set. destruct (Nat.eqb_spec k j) as [->|]; [rewrite Ek; intros E; injection E as <-; apply G|apply HX].
  Qed.
  Lemma psched_len sch : forall (ts : list thr) xs, length (snd (psched sch ts xs)) = length xs.
  Proof.
    induction sch as [|i sch IH]; intros ts xs; cbn [psched]; [reflexivity|]. destruct (nth_error ts i) as [[k p]|]; [|apply IH]. destruct (nth_error xs k) as [s|]; [|apply IH].
    destruct (pexec p s) as [p' s']. rewrite IH. generalize k as m. clear. induction xs as [|y xs IH]; intros [|m]; cbn; [reflexivity..|]. rewrite IH. reflexivity.
  Qed.
End Proc.

(** ** The calls *)
Lemma rfold_ext2 {A B} (f g : A -> B -> res A) l : (forall a x, f a x = g a x) -> forall a, rfold f l a = rfold g l a.
Proof. intros H. induction l as [|x l IH]; intros a; cbn [rfold]; [reflexivity|]. rewrite H. destruct (g a x); cbn [rbind]; [apply IH|reflexivity]. Qed.
Section Calls.
  Context {N : nat} (pp : rparams) (WF : wfp N pp).
  Notation R := (R N). Notation ct := (ctT N). Notation kst := (kst N). Notation nQ := (length (Qm pp)).
  Lemma rb {A B C} (r : res A) (f : A -> res B) (g : B -> res C) : rbind (rbind r f) g = rbind r (fun a => rbind (f a) g). Proof. destruct r; reflexivity. Qed.
  Lemma psol_pb {T A B} (r : res A) (f : A -> proc T B) s : psol (pbind (pres r) f) s = rbind r (fun a => psol (f a) s).
  Proof. rewrite psol_bind, psol_pres. destruct r; reflexivity. Qed.
  Lemma psol_ab {T A B} (g : T -> res (T * A)) (f : A -> proc T B) s : psol (pbind (act g) f) s = ('(s, a) <- g s ;; psol (f a) s).
  Proof. rewrite psol_bind, psol_act. reflexivity. Qed.
  (** alone, the steps of a call are the sequential model *)
  Lemma RotateP_sol (o : order) crs h (ctIn : ct) k rk out st : psol (RotateP pp o crs h ctIn k rk out) st = RotateSt pp o crs st h ctIn k rk out.
  Proof.
    unfold RotateP, RotateSt. rewrite psol_pb. destruct (ctLevel out) as [level|]; cbn [rbind]; [|reflexivity]. rewrite psol_pb. destruct (IDSetOf (o 0%nat) ctIn) as [ids|]; cbn [rbind]; [|reflexivity].
    rewrite psol_pb. destruct (ctLevel ctIn) as [lin|]; cbn [rbind]; [|reflexivity]. destruct (lin <? level)%nat; [reflexivity|]. rewrite psol_pb. destruct (norm_rot N k) as [kk|]; cbn [rbind]; [|reflexivity].
    rewrite psol_pb. destruct (cget ctIn id0) as [p0|]; cbn [rbind]; [|reflexivity]. rewrite psol_pb. destruct (cget out id0) as [q0|]; cbn [rbind]; [|reflexivity].
    rewrite psol_bind, psol_fold.
    rewrite (rfold_ext2 _ (fun '(st, c) id =>
       key <- rk_get rk id kk ;;
       '(st, e) <- ExtOpSt pp level st h ctIn id (rtk_val key) ;;
       let st := setq0 st (wrP level e (kq0 st)) in
       q0 <- cget c id0 ;;
       c <- cwr c id0 (lvlQ2 pp level r_add (prows q0) (prows (kq0 st))) ;;
       a <- crs_get crs kk ;;
       '(st, ea) <- ExtOpSt pp level st h ctIn id a ;;
       c <- cwr c id ea ;; Ok (st, c))).
    2:{ intros [s c] id. rewrite psol_pb. destruct (rk_get rk id kk) as [key|]; cbn [rbind]; [|reflexivity]. rewrite psol_ab. destruct (ExtOpSt pp level s h ctIn id (rtk_val key)) as [[s1 e]|]; cbn [rbind]; [|reflexivity].
        cbv zeta. rewrite psol_pb. destruct (cget c id0) as [q1|]; cbn [rbind]; [|reflexivity]. rewrite psol_ab. destruct (cwr c id0 _) as [c1|]; cbn [rbind]; [|reflexivity].
        rewrite psol_pb. destruct (crs_get crs kk) as [a|]; cbn [rbind]; [|reflexivity]. rewrite psol_ab. destruct (ExtOpSt pp level _ h ctIn id a) as [[s2 ea]|]; cbn [rbind]; [|reflexivity]. apply psol_pres. }
    destruct (rfold _ _ _) as [[s c]|]; cbn [rbind]; [|reflexivity]. rewrite psol_fold. apply rfold_ext2. intros [s1 c1] id.
    rewrite psol_pb. destruct (cget c1 id) as [q|]; cbn [rbind]; [|reflexivity]. rewrite psol_ab. cbn [rbind]. rewrite psol_act. unfold permInto. destruct (permSt pp level (galEl N kk) s1 q) as [s2 q2] eqn:E. cbn [fst].
    unfold permSt in E. injection E as <- <-. reflexivity.
  Qed.
  Lemma ConjugateP_sol (o : order) crs (ctIn : ct) ck out st : psol (ConjugateP pp o crs ctIn ck out) st = ConjugateSt pp o crs st ctIn ck out.
  Proof.
    unfold ConjugateP, ConjugateSt. rewrite psol_pb. destruct (ctLevel out) as [level|]; cbn [rbind]; [|reflexivity]. rewrite psol_pb. destruct (IDSetOf (o 0%nat) ctIn) as [ids|]; cbn [rbind]; [|reflexivity].
    rewrite psol_pb. destruct (ctLevel ctIn) as [lin|]; cbn [rbind]; [|reflexivity]. destruct (lin <? level)%nat; [reflexivity|]. rewrite psol_pb.
    destruct (rfold _ (o 1%nat (keys ctIn)) out) as [out1|]; cbn [rbind]; [|reflexivity]. rewrite psol_bind, psol_fold.
    rewrite (rfold_ext2 _ (fun '(st, c) id =>
       key <- ks_get ck id ;;
       '(st, e) <- ExtOpSt pp level st None c id (cjk_val key) ;;
       let st := setq0 st (wrP level e (kq0 st)) in
       q0 <- cget c id0 ;;
       c <- cwr c id0 (lvlQ2 pp level r_add (prows q0) (prows (kq0 st))) ;; Ok (st, c))).
    2:{ intros [s c] id. rewrite psol_pb. destruct (ks_get ck id) as [key|]; cbn [rbind]; [|reflexivity]. rewrite psol_ab. destruct (ExtOpSt pp level s None c id (cjk_val key)) as [[s1 e]|]; cbn [rbind]; [|reflexivity].
        cbv zeta. rewrite psol_pb. destruct (cget c id0) as [q1|]; cbn [rbind]; [|reflexivity]. rewrite psol_act. reflexivity. }
    destruct (rfold _ _ _) as [[s c]|]; cbn [rbind]; [|reflexivity]. rewrite psol_fold. apply rfold_ext2. intros [s1 c1] id.
    rewrite psol_pb. destruct (crs_get crs (-2)) as [a|]; cbn [rbind]; [|reflexivity]. rewrite psol_ab. destruct (ExtOpSt pp level s1 None c1 id a) as [[s2 e]|]; cbn [rbind]; [|reflexivity].
    cbv zeta. rewrite psol_pb. destruct (cget c1 id) as [q|]; cbn [rbind]; [|reflexivity]. rewrite psol_act. reflexivity.
  Qed.
  Lemma rotChainP_sol (o : nat -> order) crs fuel : forall k r rk tmp out (st : kst), psol (rotChainP pp o crs fuel k r rk tmp out) st = rotChainSt pp o crs fuel k r rk st tmp out.
  Proof.
    induction fuel as [|fuel IH]; intros k r rk tmp out st; cbn [rotChainP rotChainSt]; [destruct (0 <? r); reflexivity|]. destruct (0 <? r); [|reflexivity]. destruct (negb (r mod 2 =? 0)); [|cbn [rbind]; apply IH].
    rewrite psol_bind, RotateP_sol. destruct (RotateSt pp (o fuel) crs st None tmp k rk out) as [[s c]|]; cbn [rbind]; [|reflexivity]. rewrite psol_pb. destruct (Copy (o fuel 9%nat) tmp c) as [t|]; cbn [rbind]; [|reflexivity]. apply IH.
  Qed.
  Lemma RotateNewP_sol (o : nat -> order) crs (c : ckct N) k rk (st : kst) : psol (RotateNewP pp o crs c k rk) st = RotateNewSt pp o crs st c k rk.
  Proof.
    unfold RotateNewP, RotateNewSt, rotateSt. rewrite psol_pb. destruct (IDSetOf _ _) as [ids|]; cbn [rbind]; [|reflexivity]. rewrite psol_pb. destruct (ctLevel (cv c)) as [level|]; cbn [rbind]; [|reflexivity].
    rewrite psol_pb. destruct (rotNorm k) as [z|]; cbn [rbind]; [|reflexivity]. rewrite psol_bind. destruct (z =? 0).
    - rewrite psol_pres. destruct (Copy _ _ _); reflexivity.
    - destruct (mget Z.eq_dec crs z) as [zz|]; [rewrite RotateP_sol; destruct (RotateSt _ _ _ _ _ _ _ _ _) as [[s v]|]; reflexivity|].
      rewrite psol_pb. destruct (CopyNew _ _) as [t|]; cbn [rbind]; [|reflexivity]. rewrite rotChainP_sol. destruct (rotChainSt _ _ _ _ _ _ _ _ _ _) as [[s v]|]; reflexivity.
  Qed.
  Lemma RotateHoistedNewP_sol (o : nat -> order) crs (c : ckct N) k h rk (st : kst) : psol (RotateHoistedNewP pp o crs c k h rk) st = RotateHoistedNewSt pp o crs st c k h rk.
  Proof.
    unfold RotateHoistedNewP, RotateHoistedNewSt. rewrite psol_pb. destruct (IDSetOf _ _) as [ids|]; cbn [rbind]; [|reflexivity]. rewrite psol_pb. destruct (ctLevel (cv c)) as [level|]; cbn [rbind]; [|reflexivity].
    rewrite psol_pb. destruct (rotNorm k) as [z|]; cbn [rbind]; [|reflexivity]. rewrite psol_bind. destruct (z =? 0).
    - rewrite psol_pres. destruct (Copy _ _ _); reflexivity.
    - destruct (mget Z.eq_dec crs z) as [zz|]; [rewrite RotateP_sol; destruct (RotateSt _ _ _ _ _ _ _ _ _) as [[s v]|]; reflexivity|reflexivity].
  Qed.
  Lemma ConjugateNewP_sol (o : order) crs (c : ckct N) ck (st : kst) : psol (ConjugateNewP pp o crs c ck) st = ConjugateNewSt pp o crs st c ck.
  Proof.
    unfold ConjugateNewP, ConjugateNewSt. rewrite psol_pb. destruct (IDSetOf _ _) as [ids|]; cbn [rbind]; [|reflexivity]. rewrite psol_pb. destruct (ctLevel (cv c)) as [level|]; cbn [rbind]; [|reflexivity].
    rewrite psol_bind, ConjugateP_sol. destruct (ConjugateSt _ _ _ _ _ _ _) as [[s v]|]; reflexivity.
  Qed.

  (** *** every step keeps the shape of the buffers *)
  Lemma ext_sh level (st : kst) h (op : ct) id key s' e : (level < nQ)%nat -> sh pp st -> ExtOpSt pp level st h op id key = Ok (s', e) -> sh pp s' /\ length e = S level.
  Proof.
    intros HL SH E. pose proof (ExtOpSt_sim pp WF level st [id] h h op id key key HL SH) as S. rewrite E in S.
    assert (HR : hrel pp level [id] h h) by (destruct h as [m|]; [intros x _; unfold rsim; destruct (hget m x); [apply drel_refl|exact Logic.I]|exact Logic.I]).
    specialize (S HR (or_introl eq_refl) (drel_refl _ _ _)). unfold rsim in S. destruct (ExtOp pp level h op id key) as [e'|]; [|contradiction]. pose proof (extPost_sh pp level st e' (s', e) SH S) as S1. destruct S as (S2 & S3 & _). cbn [fst snd] in *. split; [exact S1|]. congruence.
  Qed.
  Lemma q0_sh level e (s : kst) : sh pp s -> sh pp (setq0 s (wrP level e (kq0 s))).
  Proof. intros S1. assert (Q0 : shq pp (kq0 s)) by (unfold sh in S1; tauto). pose proof (shq_wrP pp level e _ Q0). unfold sh in S1 |- *. cbn. tauto. Qed.
  Lemma extInto_sh level h (op : ct) id key : (level < nQ)%nat -> psafe (sh pp) (fun _ => True) (act (fun st => '(st, e) <- ExtOpSt pp level st h op id key ;; Ok (setq0 st (wrP level e (kq0 st)), tt))).
  Proof.
    intros HL. apply psafe_act. intros s s' a SH E. destruct (ExtOpSt pp level s h op id key) as [[s1 e]|] eqn:EE; cbn [rbind] in E; [|discriminate]. destruct (ext_sh level s h op id key s1 e HL SH EE) as [S1 _].
    assert (EZ : s' = setq0 s1 (wrP level e (kq0 s1))) by congruence. rewrite EZ. split; [apply q0_sh; exact S1|exact Logic.I].
  Qed.
  Lemma polyCopy_len (q p : poly N) : length (prows (polyCopy q p)) = length (prows q).
  Proof. unfold polyCopy. cbn [prows]. rewrite app_length, firstn_length, skipn_length. lia. Qed.
  Lemma permInto_sh level g (st : kst) q : sh pp st -> sh pp (permInto pp level g st q).
  Proof.
    intros SH. unfold permInto, permSt. cbn [fst]. unfold sh in SH |- *. cbn [setq0 kP0 kP1 kInv kq0 kq1 kq2 ks1 ks2 ks3]. unfold shq at 1. cbn [prows pntt]. rewrite tab_length. unfold shq in SH. unfold shq. tauto.
  Qed.
  Lemma rotate_safe (o : order) crs h (ctIn : ct) k rk out : uniform pp out -> psafe (sh pp) (uniform pp) (RotateP pp o crs h ctIn k rk out).
  Proof.
    intros U. unfold RotateP. eapply psafe_bind; [apply (psafe_pres _ (fun l => ctLevel out = Ok l)); trivial|]. intros level EL. destruct (U level EL) as [HL RA].
    eapply psafe_bind; [apply (psafe_pres _ (fun _ => True)); trivial|]. intros ids _. eapply psafe_bind; [apply (psafe_pres _ (fun _ => True)); trivial|]. intros lin _. destruct (lin <? level)%nat; [exact Logic.I|].
    eapply psafe_bind; [apply (psafe_pres _ (fun _ => True)); trivial|]. intros kk _. eapply psafe_bind; [apply (psafe_pres _ (fun _ => True)); trivial|]. intros p0 _.
    eapply psafe_bind; [apply (psafe_pres _ (fun q => cget out id0 = Ok q)); trivial|]. intros q0 E0.
    assert (RU : forall c : ct, rowsAre (S level) c -> uniform pp c) by (intros c RC l E; rewrite (rowsAre_level _ _ _ RC E); split; assumption).
    apply (psafe_bind _ (rowsAre (S level))).
    - apply psafe_fold; [apply rowsAre_cset; [exact RA|rewrite polyCopy_len; apply (rowsAre_get _ _ _ _ RA E0)]|]. intros c id _ RC.
      eapply psafe_bind; [apply (psafe_pres _ (fun _ => True)); trivial|]. intros key _. eapply psafe_bind; [apply extInto_sh; exact HL|]. intros _ _.
      eapply psafe_bind; [apply (psafe_pres _ (fun _ => True)); trivial|]. intros q1 _. apply (psafe_bind _ (rowsAre (S level))).
      { apply psafe_act. intros s s' c' SH E. destruct (cwr c id0 _) as [c1|] eqn:EC; cbn [rbind] in E; [|discriminate]. assert (s = s' /\ c1 = c') as [<- <-] by (split; congruence). split; [exact SH|]. apply (rowsAre_cwr _ c c1 _ _ RC (lvlQ2_len _ _ _ _ _) EC). }
      intros c1 RC1. eapply psafe_bind; [apply (psafe_pres _ (fun _ => True)); trivial|]. intros a _. apply (psafe_bind _ (fun e => length e = S level)).
      { apply psafe_act. intros s s' e SH E. apply (ext_sh _ _ _ _ _ _ _ _ HL SH E). }
      intros ea LE. apply psafe_pres. intros c2 EC. apply (rowsAre_cwr _ c1 c2 id ea RC1 LE EC).
    - intros c RC. apply (psafe_weak _ (rowsAre (S level))); [exact RU|]. apply psafe_fold; [exact RC|]. intros c1 id _ RC1.
      eapply psafe_bind; [apply (psafe_pres _ (fun q => cget c1 id = Ok q)); trivial|]. intros q EQ. apply (psafe_bind _ (fun _ => True)).
      { apply psafe_act. intros s s' a SH E. assert (EZ : s' = permInto pp level (galEl N kk) s q) by congruence. rewrite EZ. split; [apply permInto_sh; exact SH|exact Logic.I]. }
      intros _ _. apply psafe_act. intros s s' c2 SH E. assert (EZ : s = s') by congruence. assert (EC : c2 = cset c1 id (polyCopy q (kq0 s))) by congruence. rewrite <- EZ, EC. split; [exact SH|]. apply rowsAre_cset; [exact RC1|]. rewrite polyCopy_len. apply (rowsAre_get _ _ _ _ RC1 EQ).
  Qed.
  (** *** a rotation up to the loop that permutes the components *)
  Definition permLoop level g (l : list string) (c : ct) : proc kst ct :=
    pfold (fun c id => q <~ pres (cget c id) ;; _ <~ act (fun st => Ok (permInto pp level g st q, tt)) ;; act (fun st => Ok (st, cset c id (polyCopy q (kq0 st))))) l c.
  Definition reach {T A} (p : proc T A) (s : T) (q : proc T A) (s' : T) : Prop := exists m, psolo m (p, s) = (q, s').
  Lemma reach_trans {T A} (p q r : proc T A) s s' s'' : reach p s q s' -> reach q s' r s'' -> reach p s r s''.
  Proof. intros [m H] [n H']. exists (m + n)%nat. rewrite psolo_add, H. exact H'. Qed.
  Lemma reach_bind {T A B} (p q : proc T A) (f : A -> proc T B) s s' : reach p s q s' -> reach (pbind p f) s (pbind q f) s'.
  Proof.
    intros [m H]. revert p s H. induction m as [|m IH]; intros p s H; cbn [psolo fst snd] in H; [injection H as <- <-; exists 0%nat; reflexivity|].
    destruct p as [a| |g]; cbn [pexec] in H; [apply IH; exact H..|]. destruct (g s) as [s1 p1] eqn:E. destruct (IH _ _ H) as [k K]. exists (S k). cbn [psolo fst snd pbind pexec]. rewrite E. exact K.
  Qed.
  Lemma reach_sol {T A} (p : proc T A) s s' a : psol p s = Ok (s', a) -> reach p s (Ret a) s'.
  Proof. intros H. exists (psteps p s). rewrite psolo_all. unfold psol in H. destruct (prun p s) as [s1 [r|]]; [|discriminate]. injection H as <- <-. reflexivity. Qed.
  Lemma psafe_sol {T A} (I : T -> Prop) (Q : A -> Prop) (p : proc T A) : forall s s' a, psafe I Q p -> I s -> psol p s = Ok (s', a) -> I s' /\ Q a.
  Proof.
    unfold psol. induction p as [b| |g IH] using proc_induct; intros s s' a H Hs E; cbn [prun psafe] in *; [injection E as <- <-; split; assumption|discriminate|]. specialize (H s Hs). specialize (IH s). destruct (g s) as [s1 p1]. cbn [snd] in IH. destruct H as [H1 H2]. apply (IH s1 s' a H2 H1 E).
  Qed.
  Definition dom (c d : ct) : Prop := mwf c /\ forall id, mget seq_dec c id = None <-> mget seq_dec d id = None.
  Lemma dom_cset (c d : ct) id p q : dom c d -> cget c id = Ok q -> dom (cset c id p) d.
  Proof.
    intros [MW D] E. split; [apply (mwf_mset seq_dec); exact MW|]. intros x. unfold cset. rewrite mget_mset. destruct (seq_dec x id) as [->|]; [|apply D]. unfold cget in E. specialize (D id). destruct (mget seq_dec c id); [|discriminate]. split; [discriminate|]. intros Z. apply D in Z. discriminate.
  Qed.
  Lemma dom_cwr (c d c' : ct) id r : dom c d -> cwr c id r = Ok c' -> dom c' d.
  Proof. intros D E. unfold cwr in E. destruct (cget c id) as [q|] eqn:G; cbn [rbind] in E; [|discriminate]. injection E as <-. apply (dom_cset _ _ _ _ _ D G). Qed.
  Lemma rotate_reach (o : order) crs h (ctIn : ct) k rk out s s' r : uniform pp out -> mwf out -> sh pp s -> psol (RotateP pp o crs h ctIn k rk out) s = Ok (s', r) ->
    exists level kk c s1, ctLevel out = Ok level /\ (forall B (f : ct -> proc kst B), reach (pbind (RotateP pp o crs h ctIn k rk out) f) s (pbind (permLoop level (galEl N kk) (o 2%nat (keys ctIn)) c) f) s1) /\
      psol (permLoop level (galEl N kk) (o 2%nat (keys ctIn)) c) s1 = Ok (s', r) /\ sh pp s1 /\ rowsAre (S level) c /\ dom c out.
  Proof.
    intros U MW SH. unfold RotateP. rewrite psol_pb. destruct (ctLevel out) as [level|] eqn:EL; cbn [rbind pres pbind]; [|discriminate]. destruct (U level EL) as [HL RA].
    rewrite psol_pb. destruct (IDSetOf (o 0%nat) ctIn) as [ids|]; cbn [rbind pres pbind]; [|discriminate]. rewrite psol_pb. destruct (ctLevel ctIn) as [lin|]; cbn [rbind pres pbind]; [|discriminate]. destruct (lin <? level)%nat; [discriminate|].
    rewrite psol_pb. destruct (norm_rot N k) as [kk|]; cbn [rbind pres pbind]; [|discriminate]. rewrite psol_pb. destruct (cget ctIn id0) as [p0|]; cbn [rbind pres pbind]; [|discriminate].
    rewrite psol_pb. destruct (cget out id0) as [q0|] eqn:E0; cbn [rbind pres pbind]; [|discriminate]. rewrite psol_bind.
    match goal with |- context [pfold ?f (o 1%nat (keys ids)) ?c] => set (hd := pfold f (o 1%nat (keys ids)) c) end.
    assert (SF : psafe (sh pp) (fun c : ct => rowsAre (S level) c /\ dom c out) hd).
    { unfold hd. apply psafe_fold.
      - split; [apply rowsAre_cset; [exact RA|rewrite polyCopy_len; apply (rowsAre_get _ _ _ _ RA E0)]|]. apply (dom_cset out out id0 _ q0); [split; [exact MW|intros x; tauto]|exact E0].
      - intros c id _ [RC DC]. eapply psafe_bind; [apply (psafe_pres _ (fun _ => True)); trivial|]. intros key _. eapply psafe_bind; [apply extInto_sh; exact HL|]. intros _ _.
        eapply psafe_bind; [apply (psafe_pres _ (fun _ => True)); trivial|]. intros q1 _. apply (psafe_bind _ (fun c => rowsAre (S level) c /\ dom c out)).
        { apply psafe_act. intros st st' c' SS E. destruct (cwr c id0 _) as [c1|] eqn:EC; cbn [rbind] in E; [|discriminate]. assert (st = st' /\ c1 = c') as [<- <-] by (split; congruence). split; [exact SS|]. split; [apply (rowsAre_cwr _ c c1 _ _ RC (lvlQ2_len _ _ _ _ _) EC)|apply (dom_cwr _ _ _ _ _ DC EC)]. }
        intros c1 [RC1 DC1]. eapply psafe_bind; [apply (psafe_pres _ (fun _ => True)); trivial|]. intros a _. apply (psafe_bind _ (fun e => length e = S level)).
        { apply psafe_act. intros st st' e SS E. apply (ext_sh _ _ _ _ _ _ _ _ HL SS E). }
        intros ea LE. apply psafe_pres. intros c2 EC. split; [apply (rowsAre_cwr _ c1 c2 id ea RC1 LE EC)|apply (dom_cwr _ _ _ _ _ DC1 EC)]. }
    destruct (psol hd s) as [[s1 c]|] eqn:EH; cbn [rbind]; [|discriminate]. intros E. destruct (psafe_sol _ _ hd s s1 c SF SH EH) as [S1 [RC DC]].
    exists level, kk, c, s1. split; [reflexivity|]. split; [|split; [exact E|split; [exact S1|split; [exact RC|exact DC]]]].
    intros B f. apply reach_bind. apply (reach_bind hd (Ret c)). apply (reach_sol hd s s1 c EH).
  Qed.
  (** *** two rotations in the same loop *)
  Lemma polyCopy_short (q p : poly N) : (length (prows q) <= length (prows p))%nat -> polyCopy q p = Pol (firstn (length (prows q)) (prows p)) (pntt p).
  Proof. intros H. unfold polyCopy. rewrite Nat.min_l by exact H. rewrite skipn_all, app_nil_r. reflexivity. Qed.
  Lemma perm_kq0 level k (s : kst) q : (level < nQ)%nat -> sh pp s -> length (prows q) = S level -> polyCopy q (kq0 (permInto pp level (galEl N k) s q)) = polyCopy q (Pol (permRows pp level (galEl N k) (prows q)) false).
  Proof. intros HL SH LQ. destruct (permSt_ok pp WF level k s q HL SH LQ) as (s' & E & _). unfold permInto. pose proof (f_equal snd E) as E2. cbn [snd] in E2. rewrite <- E2. reflexivity. Qed.
  Lemma interleave {A} level kA kB (fA fB : ct -> proc kst A) : (level < nQ)%nat -> forall l cA cB s sB sB' (r : ct), NoDup l -> sh pp s -> sh pp sB -> rowsAre (S level) cA -> rowsAre (S level) cB ->
    (forall id, In id l -> mget seq_dec cA id <> None) -> psol (permLoop level (galEl N kB) l cB) sB = Ok (sB', r) ->
    exists sch vA s', psched sch [(0%nat, pbind (permLoop level (galEl N kA) l cA) fA); (0%nat, pbind (permLoop level (galEl N kB) l cB) fB)] [s] = ([(0%nat, fA vA); (0%nat, fB r)], [s']) /\
      (forall id, In id l -> mget seq_dec vA id = mget seq_dec r id) /\ (forall id, ~ In id l -> mget seq_dec vA id = mget seq_dec cA id /\ mget seq_dec r id = mget seq_dec cB id) /\ (mwf cA -> mwf vA).
  Proof.
    intros HL. induction l as [|id l IH]; intros cA cB s sB sB' r ND SH SB RA RB DA E.
    - cbn in E. assert (cB = r) by congruence. subst r. exists nil, cA, s. split; [reflexivity|]. split; [intros ? []|]. split; [split; reflexivity|trivial].
    - inversion ND as [|? ? NI ND']; subst. unfold permLoop in E. cbn [pfold] in E. rewrite psol_bind, psol_pb in E. destruct (cget cB id) as [qB|] eqn:EB; cbn [rbind] in E; [|discriminate].
      rewrite psol_ab in E. cbn [rbind] in E. rewrite psol_act in E. cbn [rbind] in E.
      pose proof (rowsAre_get _ _ _ _ RB EB) as LB. rewrite (perm_kq0 level kB sB qB HL SB LB) in E. set (V := polyCopy qB (Pol (permRows pp level (galEl N kB) (prows qB)) false)) in *.
      pose proof (permInto_sh level (galEl N kB) sB qB SB) as SB1.
      pose proof (DA id (or_introl eq_refl)) as DA1. destruct (cget cA id) as [qA|] eqn:EA; [|unfold cget in EA; destruct (mget seq_dec cA id); [discriminate|congruence]]. pose proof (rowsAre_get _ _ _ _ RA EA) as LA.
      set (s1 := permInto pp level (galEl N kA) s qA). assert (S1 : sh pp s1) by (apply permInto_sh; exact SH). set (s2 := permInto pp level (galEl N kB) s1 qB). assert (S2 : sh pp s2) by (apply permInto_sh; exact S1).
      assert (VB : polyCopy qB (kq0 s2) = V) by (apply perm_kq0; assumption).
      assert (VA : polyCopy qA (kq0 s2) = V).
      { rewrite <- VB. assert (Q0 : shq pp (kq0 s2)) by (unfold sh in S2; tauto). destruct Q0 as [L0 _]. rewrite !polyCopy_short by lia. rewrite LA, LB. reflexivity. }
      assert (LV : length (prows V) = S level) by (unfold V; rewrite polyCopy_len; exact LB).
      destruct (IH (cset cA id V) (cset cB id V) s2 (permInto pp level (galEl N kB) sB qB) sB' r ND' S2 SB1 (rowsAre_cset _ _ _ _ RA LV) (rowsAre_cset _ _ _ _ RB LV)) as (sch & vA & s' & P & H1 & H2 & H3).
      { intros x Hx. unfold cset. rewrite mget_mset. destruct (seq_dec x id); [discriminate|]. apply DA. right. exact Hx. }
      { exact E. }
      exists (0%nat :: 1%nat :: 0%nat :: 1%nat :: sch), vA, s'. split; [|split; [|split; [|intros MW; apply H3; apply (mwf_mset seq_dec); exact MW]]].
      + unfold permLoop at 1 2. cbn [pfold]. rewrite EA, EB. cbn [pres pbind act]. cbn [psched nth_error set_nth pexec pbind].
        fold s1. fold s2. rewrite VA, VB. exact P.
      + intros x [<-|Hx]; [|apply H1; exact Hx]. destruct (H2 id NI) as [A1 A2]. rewrite A1, A2. unfold cset. rewrite !mget_mset. destruct (seq_dec id id); [reflexivity|congruence].
      + intros x Hx. cbn in Hx. assert (NX : ~ In x l) by tauto. destruct (H2 x NX) as [A1 A2]. rewrite A1, A2. unfold cset. rewrite !mget_mset. destruct (seq_dec x id) as [->|]; [tauto|split; reflexivity].
  Qed.
  Lemma conj_safe (o : order) crs (ctIn : ct) ck out : fits pp out -> psafe (sh pp) (fun _ => True) (ConjugateP pp o crs ctIn ck out).
  Proof.
    intros U. unfold ConjugateP. eapply psafe_bind; [apply (psafe_pres _ (fun l => ctLevel out = Ok l)); trivial|]. intros level EL. pose proof (U level EL) as HL.
    eapply psafe_bind; [apply (psafe_pres _ (fun _ => True)); trivial|]. intros ids _. eapply psafe_bind; [apply (psafe_pres _ (fun _ => True)); trivial|]. intros lin _. destruct (lin <? level)%nat; [exact Logic.I|].
    eapply psafe_bind; [apply (psafe_pres _ (fun _ => True)); trivial|]. intros out1 _. apply (psafe_bind _ (fun _ => True)).
    - apply psafe_fold; [exact Logic.I|]. intros c id _ _. eapply psafe_bind; [apply (psafe_pres _ (fun _ => True)); trivial|]. intros key _. eapply psafe_bind; [apply extInto_sh; exact HL|]. intros _ _.
      eapply psafe_bind; [apply (psafe_pres _ (fun _ => True)); trivial|]. intros q1 _. apply psafe_act. intros s s' c' SH E. destruct (cwr c id0 _) as [c1|] eqn:EC; cbn [rbind] in E; [|discriminate]. assert (s = s') by congruence. subst s'. split; [exact SH|exact Logic.I].
    - intros c _. apply psafe_fold; [exact Logic.I|]. intros c1 id _ _. eapply psafe_bind; [apply (psafe_pres _ (fun _ => True)); trivial|]. intros a _. eapply psafe_bind; [apply extInto_sh; exact HL|]. intros _ _.
      eapply psafe_bind; [apply (psafe_pres _ (fun _ => True)); trivial|]. intros q1 _. apply psafe_act. intros s s' c' SH E. assert (s = s') by congruence. subst s'. split; [exact SH|exact Logic.I].
  Qed.
  Lemma chain_safe (o : nat -> order) crs fuel : forall k r rk tmp out, uniform pp out -> psafe (sh pp) (fun _ => True) (rotChainP pp o crs fuel k r rk tmp (out : ct)).
  Proof.
    induction fuel as [|fuel IH]; intros k r rk tmp out U; cbn [rotChainP]; [destruct (0 <? r); exact Logic.I|]. destruct (0 <? r); [|exact Logic.I]. destruct (negb (r mod 2 =? 0)); [|apply IH; exact U].
    eapply psafe_bind; [apply rotate_safe; exact U|]. intros c UC. eapply psafe_bind; [apply (psafe_pres _ (fun _ => True)); trivial|]. intros t _. apply IH. exact UC.
  Qed.
  Lemma safe_ret {A B} (p : proc kst A) (f : A -> B) : psafe (sh pp) (fun _ => True) p -> psafe (sh pp) (fun _ => True) (pbind p (fun a => Ret (f a))).
  Proof. intros H. eapply psafe_bind; [exact H|]. intros; exact Logic.I. Qed.
  Lemma RotateNew_safe (o : nat -> order) crs (c : ckct N) k rk : fits pp (cv c) -> psafe (sh pp) (fun _ => True) (RotateNewP pp o crs c k rk).
  Proof.
    intros FT. unfold RotateNewP. eapply psafe_bind; [apply (psafe_pres _ (fun _ => True)); trivial|]. intros ids _. eapply psafe_bind; [apply (psafe_pres _ (fun l => ctLevel (cv c) = Ok l)); trivial|]. intros level EL.
    pose proof (@New_uniform N pp (o 0%nat 2%nat) ids level (FT _ EL)) as U. eapply psafe_bind; [apply (psafe_pres _ (fun _ => True)); trivial|]. intros z _. apply safe_ret. destruct (z =? 0); [apply psafe_pres; trivial|].
    destruct (mget Z.eq_dec crs z).
    - eapply psafe_weak; [|apply rotate_safe; exact U]. trivial.
    - eapply psafe_bind; [apply (psafe_pres _ (fun _ => True)); trivial|]. intros t _. apply chain_safe. exact U.
  Qed.
  Lemma RotateHoistedNew_safe (o : nat -> order) crs (c : ckct N) k h rk : fits pp (cv c) -> psafe (sh pp) (fun _ => True) (RotateHoistedNewP pp o crs c k h rk).
  Proof.
    intros FT. unfold RotateHoistedNewP. eapply psafe_bind; [apply (psafe_pres _ (fun _ => True)); trivial|]. intros ids _. eapply psafe_bind; [apply (psafe_pres _ (fun l => ctLevel (cv c) = Ok l)); trivial|]. intros level EL.
    pose proof (@New_uniform N pp (o 0%nat 2%nat) ids level (FT _ EL)) as U. eapply psafe_bind; [apply (psafe_pres _ (fun _ => True)); trivial|]. intros z _. apply safe_ret. destruct (z =? 0); [apply psafe_pres; trivial|].
    destruct (mget Z.eq_dec crs z); [|exact Logic.I]. eapply psafe_weak; [|apply rotate_safe; exact U]. trivial.
  Qed.
  Lemma ConjugateNew_safe (o : order) crs (c : ckct N) ck : fits pp (cv c) -> psafe (sh pp) (fun _ => True) (ConjugateNewP pp o crs c ck).
  Proof.
    intros FT. unfold ConjugateNewP. eapply psafe_bind; [apply (psafe_pres _ (fun _ => True)); trivial|]. intros ids _. eapply psafe_bind; [apply (psafe_pres _ (fun l => ctLevel (cv c) = Ok l)); trivial|]. intros level EL.
    apply safe_ret. apply conj_safe. intros l E. apply (@New_uniform N pp (o 61%nat) ids level (FT _ EL) l E).
  Qed.
End Calls.
Section BCalls.
  Context {N : nat} (b : bparams) (WF : wfp N (ppQ b)).
  Notation pp := (ppQ b). Notation ct := (ctT N). Notation kst := (kst N).
  Lemma bRotateNewP_sol (o : nat -> order) crs (c : ct) k rk (st : kst) : psol (bRotateNewP b o crs c k rk) st = bRotateNewSt b o crs st c k rk.
  Proof.
    unfold bRotateNewP, bRotateNewSt, bRotateSt. rewrite psol_pb. destruct (IDSetOf _ _) as [ids|]; cbn [rbind]; [|reflexivity].
    rewrite psol_pb. destruct (rotNorm k) as [z|]; cbn [rbind]; [|reflexivity]. destruct (z =? 0).
    - apply psol_pres.
    - rewrite psol_pb. destruct (CopyNew _ _) as [t|]; cbn [rbind]; [|reflexivity]. destruct (mget Z.eq_dec crs z) as [zz|]; [apply RotateP_sol|apply rotChainP_sol].
  Qed.
  Lemma bConjugateNewP_sol (o : order) crs (c : ct) ck (st : kst) : psol (bConjugateNewP b o crs c ck) st = bConjugateNewSt b o crs st c ck.
  Proof.
    unfold bConjugateNewP, bConjugateNewSt. rewrite psol_pb. destruct (IDSetOf _ _) as [ids|]; cbn [rbind]; [|reflexivity]. rewrite psol_pb. destruct (CopyNew _ _) as [t|]; cbn [rbind]; [|reflexivity]. apply ConjugateP_sol.
  Qed.
  Lemma bNew_uniform o ids : uniform pp (@bNewCiphertext N pp o ids).
  Proof. unfold bNewCiphertext. apply New_uniform. unfold maxLevel. pose proof (wf_Qpos _ _ WF). lia. Qed.
  Lemma bRotateNew_safe (o : nat -> order) crs (c : ct) k rk : psafe (sh pp) (fun _ => True) (bRotateNewP b o crs c k rk).
  Proof.
    unfold bRotateNewP. eapply psafe_bind; [apply (psafe_pres _ (fun _ => True)); trivial|]. intros ids _. cbv zeta. pose proof (bNew_uniform (o 0%nat 2%nat) ids) as U.
    eapply psafe_bind; [apply (psafe_pres _ (fun _ => True)); trivial|]. intros z _. destruct (z =? 0); [apply psafe_pres; trivial|]. eapply psafe_bind; [apply (psafe_pres _ (fun _ => True)); trivial|]. intros t _.
    destruct (mget Z.eq_dec crs z).
    - eapply psafe_weak; [|apply rotate_safe; [exact WF|exact U]]. trivial.
    - apply chain_safe; [exact WF|exact U].
  Qed.
  Lemma bConjugateNew_safe (o : order) crs (c : ct) ck : psafe (sh pp) (fun _ => True) (bConjugateNewP b o crs c ck).
  Proof.
    unfold bConjugateNewP. eapply psafe_bind; [apply (psafe_pres _ (fun _ => True)); trivial|]. intros ids _. eapply psafe_bind; [apply (psafe_pres _ (fun _ => True)); trivial|]. intros t _.
    apply conj_safe; [exact WF|]. intros l E. apply (bNew_uniform (o 61%nat) ids l E).
  Qed.
  Lemma bRotateNewP_sim (o : nat -> order) crs st (c : ct) k rk : (forall m, order_ok (o m)) -> sh pp st -> rsim (same pp) (bRotateNew pp o crs c k rk) (psol (bRotateNewP b o crs c k rk) st).
  Proof.
    intros O SH. rewrite bRotateNewP_sol. unfold bRotateNew, bRotateNewSt. apply rsim_eq. intros ids _. pose proof (bNew_uniform (o 0%nat 2%nat) ids) as U.
    unfold bRotate, bRotateSt. apply rsim_eq. intros z _. destruct (z =? 0).
    - destruct (Copy _ _ _) as [v|]; cbn [rsim rbind]; [split; [reflexivity|exact SH]|exact I].
    - apply rsim_eq. intros t _. destruct (mget Z.eq_dec crs z).
      + eapply rsim_weak; [|apply (RotateSt_sim pp WF (o 0%nat) crs st t None None z rk _ (O 0%nat) SH U); intros l _; exact I]. intros x y [X _]. exact X.
      + apply (rotChainSt_sim pp WF); assumption.
  Qed.
  Lemma bConjugateNewP_sim (o : order) crs st (c : ct) ck : order_ok o -> sh pp st -> rsim (same pp) (bConjugateNew pp o crs c ck) (psol (bConjugateNewP b o crs c ck) st).
  Proof.
    intros O SH. rewrite bConjugateNewP_sol. unfold bConjugateNew, bConjugateNewSt. apply rsim_eq. intros ids _. apply rsim_eq. intros t _. pose proof (bNew_uniform (o 61%nat) ids) as U.
    apply (ConjugateSt_sim pp WF o crs st t ck _ O SH). intros l E. apply (U l E).
  Qed.
End BCalls.
