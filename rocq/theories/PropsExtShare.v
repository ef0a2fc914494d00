(** C64: basis extenders used by several goroutines. *)
From Verif Require Import Base BasisExt NumTheory Word BasisExtProofs BasisSpec PropsBasis Digits ExtShare ExtShareProofs.
From Coq Require Import Znumtheory.
Open Scope Z_scope.

(** ** Specification *)
(** polynomial p holds, in its rows 0..L, the residues of the integers X 0 .. X (n-1) modulo the first L+1 moduli *)
Definition holds (m : mem) (n : nat) (Q : list Z) (L p : nat) (X : nat -> Z) : Prop :=
  forall k, (k < n)%nat -> residues_of (X k) (firstn (S L) Q) (column m p k (S L)).
(** the words are below twice the modulus *)
Definition lazy (m : mem) (n : nat) (Q : list Z) (L p : nat) : Prop :=
  forall i k, (i <= L)%nat -> (k < n)%nat -> m (p, i, k) < 2 * nth i Q 0.
(** polynomial p holds, reduced, the integers X k divided by the product D of the first L'+1 moduli of P, where each X k - r is divided exactly and r is in [0, D) up to 2^-40 D *)
Definition divided (m : mem) (n : nat) (Q P : list Z) (L L' p : nat) (X : nat -> Z) : Prop :=
  let D := product (firstn (S L') P) in
  forall k, (k < n)%nat -> exists r, (D | X k - r) /\ almost_reduced r D /\ canonical ((X k - r) / D) (firstn (S L) Q) (column m p k (S L)).
(** a call on a live extender with polynomials allocated by the caller, levels in range and inputs that hold the integers X *)
Definition ready (n : nat) (w : world) (m : mem) (c : call) (X : nat -> Z) : Prop :=
  exists x, nth_error (exts w) (cExt c) = Some (Some x) /\ moduli (eQ x ++ eP x) /\ (cLQ c < length (eQ x))%nat /\ (cLP c < length (eP x))%nat /\ (cLP c < 32)%nat /\
    In (c1Q c) (polys w) /\ In (c1P c) (polys w) /\ In (c2 c) (polys w) /\ (cToQ c = false -> cLQ c = cLP c) /\
    holds m n (eQ x) (cLQ c) (c1Q c) X /\ holds m n (eP x) (cLP c) (c1P c) X /\
    (if cToQ c then lazy m n (eQ x) (cLQ c) (c1Q c) else lazy m n (eP x) (cLP c) (c1P c)).
(** what the call has to leave in its output polynomial *)
Definition right_result (n : nat) (w : world) (m : mem) (c : call) (X : nat -> Z) : Prop :=
  exists x, nth_error (exts w) (cExt c) = Some (Some x) /\
    if cToQ c then divided m n (eQ x) (eP x) (cLQ c) (cLP c) (c2 c) X else divided m n (eP x) (eQ x) (cLP c) (cLQ c) (c2 c) X.
(** neither call writes a polynomial the other uses, and they use different extenders, or the same one in different directions *)
Definition apart (c c' : call) : Prop :=
  ~ In (c2 c) [c1Q c'; c1P c'; c2 c'] /\ ~ In (c2 c') [c1Q c; c1P c; c2 c] /\ (cExt c = cExt c' -> cToQ c <> cToQ c').

(** ** One call alone *)
(** ModDownQPtoQ and ModDownQPtoP are the same with the roles of the rings exchanged *)
Definition gdiv (Q P : list Z) (lQ lP lvl : nat) (rowsQ rowsP : list Z) : res (list Z) :=
  pool <- ModUp P Q lP lQ rowsP ;;
  md <- idx (genModDownParams Q P) lvl ;;
  Ok (map (fun i => md_out (nth i Q 0) (nth i rowsQ 0) (nth i pool 0) (nth i md 0)) (seq 0 (S lQ))).
Definition gprogram (n : nat) (Q P : list Z) (lQ lP lvl p1 src pool p2 : nat) : list mop :=
  upProg n P Q lP lQ src pool ++ divProg n Q P lQ lvl p1 pool p2.
Lemma ModUp_len Q P lQ lP rows out : (lP < length P)%nat -> ModUp Q P lQ lP rows = Ok out -> length out = S lP.
Proof.
  intros L. unfold ModUp, modUpExact. destruct (idx (params_table Q P) lQ); cbn [rbind]; [|discriminate]. destruct (reconstructRNS _ _ _) as [[y v]|]; cbn [rbind]; [|discriminate].
  intros H. apply rmapM_len in H. rewrite H, combine_length, seq_length, Nat.min_id, firstn_length. lia.
Qed.
Definition upV (Q P : list Z) (lQ lP : nat) (m : mem) (src : nat) (l : loc) : Z :=
  let '(_, j, x) := l in match ModUp Q P lQ lP (column m src x (S lQ)) with Ok out => nth j out 0 | Panic => 0 end.
Lemma upV_ok n Q P lQ lP src dst m : (n mod 8 = 0)%nat -> src <> dst -> (lP < length P)%nat ->
  (forall x, (x < n)%nat -> exists out, ModUp Q P lQ lP (column m src x (S lQ)) = Ok out) ->
  wr m (upProg n Q P lQ lP src dst) (within src lQ n) (within dst lP n) (upV Q P lQ lP m src).
Proof.
  intros N8 NE L H. apply up_ok; try assumption. intros x Hx. destruct (H x Hx) as (out & E). exists out. split; [exact E|]. split; [eapply ModUp_len; eassumption|].
  intros j Hj. unfold upV. rewrite E. reflexivity.
Qed.
(** the division phase run on a pool that holds the extension of some P part *)
Lemma div_phase n Q P lQ lP lvl p1 pool p2 m r m0 src : pool <> p2 -> (lQ < length Q)%nat ->
  (forall x, (x < n)%nat -> exists out, gdiv Q P lQ lP lvl (column m p1 x (S lQ)) (column m0 src x (S lP)) = Ok out) ->
  (forall l, within pool lQ n l -> m l = upV P Q lP lQ m0 src l) -> (0 < n)%nat ->
  exists r' m', prun (divProg n Q P lQ lvl p1 pool p2) r m = Ok (r', m') /\
    (forall x, (x < n)%nat -> gdiv Q P lQ lP lvl (column m p1 x (S lQ)) (column m0 src x (S lP)) = Ok (column m' p2 x (S lQ))) /\
    (forall l, ~ within p2 lQ n l -> m' l = m l).
Proof.
  intros NE LQ H PV N0.
  assert (EMD : exists md, idx (genModDownParams Q P) lvl = Ok md).
  { destruct (H 0%nat N0) as (out & E). unfold gdiv in E. destruct (ModUp _ _ _ _ _); cbn in E; [|discriminate]. destruct (idx _ lvl) as [md|]; [exists md; reflexivity|discriminate]. }
  destruct EMD as (md & MD).
  destruct (div_ok n Q P lQ lvl p1 pool p2 m md
     (fun l => let '(_, i, x) := l in md_out (nth i Q 0) (m (p1, i, x)) (m (pool, i, x)) (nth i md 0)) MD NE ltac:(reflexivity) r m ltac:(reflexivity)) as (r' & m' & E & A & B).
  exists r', m'. split; [exact E|]. split; [|exact B]. intros x Hx. destruct (H x Hx) as (out & EO). rewrite EO. unfold gdiv in EO.
  destruct (ModUp P Q lP lQ (column m0 src x (S lP))) as [up|] eqn:EU; [|discriminate]. cbn [rbind] in EO. rewrite MD in EO. cbn [rbind] in EO. match type of EO with Ok ?a = Ok ?b => assert (EZ : a = b) by congruence end. rewrite <- EZ. f_equal.
  apply map_ext_in. intros i Hi. apply in_seq in Hi. rewrite (A (p2, i, x)) by (cbn; lia). rewrite column_nth by lia. rewrite (PV (pool, i, x)) by (cbn; lia). unfold upV. rewrite EU. reflexivity.
Qed.
Lemma gdiv_up Q P lQ lP lvl rq rp out : gdiv Q P lQ lP lvl rq rp = Ok out -> exists up, ModUp P Q lP lQ rp = Ok up.
Proof. unfold gdiv. destruct (ModUp P Q lP lQ rp) as [up|]; [exists up; reflexivity|discriminate]. Qed.
Lemma solo n Q P lQ lP lvl p1 src pool p2 m r : (n mod 8 = 0)%nat -> (0 < n)%nat -> pool <> p1 -> pool <> p2 -> pool <> src -> (lQ < length Q)%nat ->
  (forall x, (x < n)%nat -> exists out, gdiv Q P lQ lP lvl (column m p1 x (S lQ)) (column m src x (S lP)) = Ok out) ->
  exists r' m', prun (gprogram n Q P lQ lP lvl p1 src pool p2) r m = Ok (r', m') /\
    forall x, (x < n)%nat -> gdiv Q P lQ lP lvl (column m p1 x (S lQ)) (column m src x (S lP)) = Ok (column m' p2 x (S lQ)).
Proof.
  intros N8 N0 N1 N2 N3 LQ H. unfold gprogram. rewrite prun_app.
  destruct (upV_ok n P Q lP lQ src pool m N8 ltac:(congruence) LQ) with (r := r) (m := m) as (r1 & m1 & E1 & A1 & B1); [|reflexivity|].
  { intros x Hx. destruct (H x Hx) as (out & E). eapply gdiv_up; exact E. }
  rewrite E1. cbn [rbind].
  assert (C1 : forall x, column m1 p1 x (S lQ) = column m p1 x (S lQ)). { intros x. apply column_ext. intros i Hi. apply B1. intros (E & _). congruence. }
  destruct (div_phase n Q P lQ lP lvl p1 pool p2 m1 r1 m src N2 LQ) as (r2 & m2 & E2 & A2 & _); trivial.
  { intros x Hx. rewrite C1. apply H. assumption. }
  exists r2, m2. split; [exact E2|]. intros x Hx. rewrite <- C1. apply A2. assumption.
Qed.

(** ** The steps of a call and what they touch *)
Definition pool_of (x : fbe) (c : call) : nat := if cToQ c then poolQ x else poolP x.
Lemma startCall_eq n w c x : nth_error (exts w) (cExt c) = Some (Some x) -> startCall n w c = Gor (callProg n x c) (fun _ _ => 0) false.
Proof. intros H. unfold startCall. rewrite H. reflexivity. Qed.
Lemma callProg_wrs n x c l : (n mod 8 = 0)%nat -> wrs (callProg n x c) l -> fst (fst l) = pool_of x c \/ fst (fst l) = c2 c.
Proof.
  intros N8. unfold callProg, pool_of. destruct (cToQ c); intros H; apply wrs_app in H; destruct H as [H|H];
    [apply up_wrs in H; [|assumption]|apply div_wrs in H|apply up_wrs in H; [|assumption]|apply div_wrs in H]; destruct l as [[p i] k], H as (-> & _); cbn; auto.
Qed.
Lemma callProg_uses n x c l : (n mod 8 = 0)%nat -> uses (callProg n x c) l -> fst (fst l) = pool_of x c \/ In (fst (fst l)) [c1Q c; c1P c; c2 c].
Proof.
  intros N8 [H|H].
  - unfold callProg, pool_of in *. destruct (cToQ c); apply rds_app in H; destruct H as [H|H];
      [apply up_rds in H; [|assumption]|apply div_rds in H|apply up_rds in H; [|assumption]|apply div_rds in H]; destruct l as [[p i] k]; cbn in *; intuition.
  - apply callProg_wrs in H; [|assumption]. cbn. destruct H as [H|H]; auto.
Qed.
Lemma apart_independent n h calls : (n mod 8 = 0)%nat ->
  (forall i c, nth_error calls i = Some c -> exists x, nth_error (exts (history h)) (cExt c) = Some (Some x) /\ In (c1Q c) (polys (history h)) /\ In (c1P c) (polys (history h)) /\ In (c2 c) (polys (history h))) ->
  (forall i j c c', i <> j -> nth_error calls i = Some c -> nth_error calls j = Some c' -> apart c c') ->
  independent (map gprog (map (startCall n (history h)) calls)).
Proof.
  intros N8 R AP i j p q l NE HP HQ W U. rewrite map_map in HP, HQ. rewrite nth_error_map in HP, HQ.
  destruct (nth_error calls i) as [c|] eqn:Ci; [|discriminate]. destruct (nth_error calls j) as [c'|] eqn:Cj; [|discriminate]. cbn in HP, HQ. injection HP as <-. injection HQ as <-.
  destruct (R i c Ci) as (x & X & I1 & I2 & I3). destruct (R j c' Cj) as (x' & X' & J1 & J2 & J3).
  rewrite (startCall_eq n _ c x X) in W. rewrite (startCall_eq n _ c' x' X') in U. cbn [gprog] in *.
  apply callProg_wrs in W; [|assumption]. apply callProg_uses in U; [|assumption].
  destruct (history_allocated h) as (_ & B & C). destruct (B _ _ X) as (_ & _ & D & NQ & NP). destruct (B _ _ X') as (_ & _ & D' & NQ' & NP').
  destruct (AP i j c c' NE Ci Cj) as (A1 & A2 & A3).
  assert (PN : forall z, In z [c1Q c'; c1P c'; c2 c'] -> pool_of x c <> z).
  { intros z Hz E. assert (In z (polys (history h))) by (destruct Hz as [<-|[<-|[<-|[]]]]; assumption). unfold pool_of in E. destruct (cToQ c); congruence. }
  assert (PN' : pool_of x' c' <> c2 c). { unfold pool_of. destruct (cToQ c'); congruence. }
  destruct W as [W|W], U as [U|U].
  - destruct (Nat.eq_dec (cExt c) (cExt c')) as [E|E].
    + rewrite E, X' in X. injection X as <-. specialize (A3 E). unfold pool_of in W, U. destruct (cToQ c), (cToQ c'); congruence.
    + destruct (C _ _ _ _ E X X') as (C1 & C2 & C3 & C4). unfold pool_of in W, U. destruct (cToQ c), (cToQ c'); congruence.
  - apply (PN _ U). congruence.
  - congruence.
  - apply A1. rewrite <- W. assumption.
Qed.
Lemma solo_call n h m c X x : (n mod 8 = 0)%nat -> (0 < n)%nat -> ready n (history h) m c X -> nth_error (exts (history h)) (cExt c) = Some (Some x) ->
  exists r' m', prun (callProg n x c) (fun _ _ => 0) m = Ok (r', m') /\ right_result n (history h) m' c X.
Proof.
  intros N8 N0 (x0 & E & MO & LQ & LP & L32 & I1 & I2 & I3 & EL & HQ & HP & LZ) EX. rewrite EX in E. injection E as <-.
  destruct (history_allocated h) as (_ & B & _). destruct (B _ _ EX) as (_ & _ & D & NQ & NP).
  assert (DN : forall z, In z (polys (history h)) -> poolQ x <> z /\ poolP x <> z) by (intros z Hz; split; congruence).
  unfold right_result. unfold callProg. destruct (cToQ c).
  - destruct (solo n (eQ x) (eP x) (cLQ c) (cLP c) (cLP c) (c1Q c) (c1P c) (poolQ x) (c2 c) m (fun _ _ => 0) N8 N0) as (r' & m' & ER & V); try (apply DN; assumption); [assumption| |].
    { intros k Hk. destruct (C09_moddown_floor (eQ x) (eP x) (cLQ c) (cLP c) (X k) (column m (c1Q c) k (S (cLQ c))) (column m (c1P c) k (S (cLP c)))) as (out & r & E & _); try assumption; [apply HQ; assumption| |apply HP; assumption|exists out; exact E].
      intros i Hi. rewrite column_nth by lia. apply LZ; [lia|assumption]. }
    exists r', m'. split; [exact ER|]. exists x. split; [exact EX|]. intros k Hk.
    destruct (C09_moddown_floor (eQ x) (eP x) (cLQ c) (cLP c) (X k) (column m (c1Q c) k (S (cLQ c))) (column m (c1P c) k (S (cLP c)))) as (out & r & E & G1 & G2 & G3); try assumption; [apply HQ; assumption| |apply HP; assumption|].
    { intros i Hi. rewrite column_nth by lia. apply LZ; [lia|assumption]. }
    exists r. split; [exact G1|]. split; [exact G2|]. pose proof (V k Hk) as VK. unfold ModDownQPtoQ in E. unfold gdiv in VK. rewrite E in VK. match type of VK with Ok ?a = Ok ?b => assert (EZ : a = b) by congruence end. rewrite <- EZ. exact G3.
  - specialize (EL eq_refl). rewrite EL in *.
    destruct (solo n (eP x) (eQ x) (cLP c) (cLP c) (cLP c) (c1P c) (c1Q c) (poolP x) (c2 c) m (fun _ _ => 0) N8 N0) as (r' & m' & ER & V); try (apply DN; assumption); [assumption| |].
    { intros k Hk. destruct (C10_moddownP_equal_levels (eQ x) (eP x) (cLP c) (X k) (column m (c1Q c) k (S (cLP c))) (column m (c1P c) k (S (cLP c)))) as (out & r & E & _); try assumption; [apply HQ; assumption|apply HP; assumption| |exists out; exact E].
      intros i Hi. rewrite column_nth by lia. apply LZ; [lia|assumption]. }
    exists r', m'. split; [exact ER|]. exists x. split; [exact EX|]. intros k Hk.
    destruct (C10_moddownP_equal_levels (eQ x) (eP x) (cLP c) (X k) (column m (c1Q c) k (S (cLP c))) (column m (c1P c) k (S (cLP c)))) as (out & r & E & G1 & G2 & G3); try assumption; [apply HQ; assumption|apply HP; assumption| |].
    { intros i Hi. rewrite column_nth by lia. apply LZ; [lia|assumption]. }
    exists r. split; [exact G1|]. split; [exact G2|]. pose proof (V k Hk) as VK. unfold ModDownQPtoP in E. unfold gdiv in VK. rewrite E in VK. match type of VK with Ok ?a = Ok ?b => assert (EZ : a = b) by congruence end. rewrite <- EZ. exact G3.
Qed.

(** ** C64 *)
(** Whatever extenders and copies were made, calls that are apart never panic and give, under every schedule of their memory accesses, the right results;
    nothing else of the caller's memory changes; and every call finishes once it has been given as many steps as it has. *)
Theorem C64_concurrent_calls : forall n h m (calls : list call) (X : nat -> nat -> Z) sch, (n mod 8 = 0)%nat -> (0 < n)%nat ->
  (forall i c, nth_error calls i = Some c -> ready n (history h) m c (X i)) ->
  (forall i j c c', i <> j -> nth_error calls i = Some c -> nth_error calls j = Some c' -> apart c c') ->
  let gs := map (startCall n (history h)) calls in
  let '(gs', m') := gsched sch gs m in
  (forall i c, nth_error calls i = Some c -> exists g g', nth_error gs i = Some g /\ nth_error gs' i = Some g' /\ gpanic g' = false /\
     ((length (gprog g) <= count i sch)%nat <-> gprog g' = nil) /\ (gprog g' = nil -> right_result n (history h) m' c (X i))) /\
  (forall p i k, In p (polys (history h)) -> (forall c, In c calls -> c2 c <> p) -> m' (p, i, k) = m (p, i, k)).
Proof.
  intros n h m calls X sch N8 N0 R AP gs. destruct (gsched sch gs m) as [gs' m'] eqn:S.
  assert (IND : independent (map gprog gs)).
  { apply apart_independent; [assumption| |assumption]. intros i c Hc. destruct (R i c Hc) as (x & E & _ & _ & _ & _ & I1 & I2 & I3 & _). exists x. auto. }
  split.
  - intros i c Hc. destruct (R i c Hc) as (x & E & RR).
    assert (G : nth_error gs i = Some (Gor (callProg n x c) (fun _ _ => 0) false)). { unfold gs. rewrite nth_error_map, Hc. cbn. rewrite (startCall_eq n _ c x E). reflexivity. }
    destruct (sched_alone gs m IND sch i _ G) as [A B]. rewrite S in A, B. cbn [fst snd] in A, B.
    destruct (solo_call n h m c (X i) x N8 N0 (R i c Hc) E) as (r1 & m1 & ER & RES).
    eexists _, _. split; [exact G|]. split; [exact A|].
    destruct (le_lt_dec (length (callProg n x c)) (count i sch)) as [LE|LT].
    + cbn [gprog]. rewrite (alone_done _ _ _ _ _ _ ER LE) in *. cbn [fst snd gpanic gprog] in *. split; [reflexivity|]. split; [split; auto|]. intros _.
      destruct RES as (x' & E' & RES). exists x'. split; [exact E'|].
      assert (COL : forall k L, (k < n)%nat -> (L = if cToQ c then cLQ c else cLP c) -> column m' (c2 c) k (Datatypes.S L) = column m1 (c2 c) k (Datatypes.S L)).
      { intros k L Hk EL. apply column_ext. intros a Ha. apply B. cbn [gprog]. right. unfold callProg. destruct (cToQ c); subst L;
          (eexists; apply in_or_app; right; apply in_flat_map; exists (a, k); split; [apply in_prod; apply in_seq; lia|cbn; right; right; left; reflexivity]). }
      destruct (cToQ c); intros k Hk; destruct (RES k Hk) as (r & G1 & G2 & G3); exists r; (split; [exact G1|split; [exact G2|]]); rewrite COL; auto.
    + destruct (alone_prefix _ _ _ _ _ (count i sch) ER ltac:(lia)) as [P1 P2]. cbn [gprog]. split; [exact P1|]. split.
      * split; [lia|]. intros Z. rewrite Z in P2. cbn in P2. lia.
      * intros Z. rewrite Z in P2. cbn in P2. lia.
  - intros p i k Hp NC. pose proof (sched_frame gs m sch (p, i, k)) as F. rewrite S in F. apply F. intros g Hg W. unfold gs in Hg. apply in_map_iff in Hg. destruct Hg as (c & <- & Hc).
    apply In_nth_error in Hc. destruct Hc as (a & Ha). destruct (R a c Ha) as (x & E & _). rewrite (startCall_eq n _ c x E) in W. apply callProg_wrs in W; [|assumption]. cbn in W.
    destruct W as [W|W]; [|apply (NC c); [eapply nth_error_In; exact Ha|congruence]].
    destruct (history_allocated h) as (_ & B & _). destruct (B _ _ E) as (_ & _ & _ & NQ & NP). unfold pool_of in W. destruct (cToQ c); congruence.
Qed.
Print Assumptions C64_concurrent_calls.

(** ** Copies *)
(** a shallow copy works with the same moduli and has buffers of its own; a copy of nil is nil; the objects made before stay *)
Theorem C64_shallow_copy : forall h e x, nth_error (exts (history h)) e = Some x ->
  let w' := history (h ++ [ShallowCopyOf e]) in
  polys w' = polys (history h) /\ (forall j, (j < length (exts (history h)))%nat -> nth_error (exts w') j = nth_error (exts (history h)) j) /\
  match x with
  | None => nth_error (exts w') (length (exts (history h))) = Some None
  | Some y => exists z, nth_error (exts w') (length (exts (history h))) = Some (Some z) /\ eQ z = eQ y /\ eP z = eP y /\ poolQ z <> poolP z /\
      ~ In (poolQ z) (polys w') /\ ~ In (poolP z) (polys w') /\
      forall j u, nth_error (exts (history h)) j = Some (Some u) -> ~ In (poolQ z) [poolQ u; poolP u] /\ ~ In (poolP z) [poolQ u; poolP u]
  end.
Proof.
  intros h e x H w'. assert (W' : w' = shallowCopy (history h) x). { unfold w', history at 1. rewrite fold_left_app. cbn [fold_left]. fold (history h). cbn [hstep]. rewrite H. reflexivity. }
  clearbody w'. subst w'.
  pose proof (history_allocated h) as (A & B & C). destruct x as [y|]; cbn [shallowCopy exts polys].
  - split; [reflexivity|]. split; [intros j Hj; apply nth_error_app1; assumption|]. eexists. split; [rewrite nth_error_app2, Nat.sub_diag by lia; reflexivity|]. cbn [eQ eP poolQ poolP].
    split; [reflexivity|]. split; [reflexivity|]. split; [lia|]. split; [intros I; apply A in I; lia|]. split; [intros I; apply A in I; lia|].
    intros j u Hu. destruct (B j u Hu) as (B1 & B2 & _). cbn. lia.
  - split; [reflexivity|]. split; [intros j Hj; apply nth_error_app1; assumption|]. rewrite nth_error_app2, Nat.sub_diag by lia. reflexivity.
Qed.
Print Assumptions C64_shallow_copy.

(** ** Two calls on one extender *)
Lemma sched_repeat i k gs m g : nth_error gs i = Some g -> gsched (repeat i k) gs m = (gset i (fst (alone k g m)) gs, snd (alone k g m)).
Proof.
  revert gs m g. induction k as [|k IH]; intros gs m g G; cbn.
  - f_equal. revert i G. induction gs as [|y gs IHg]; intros [|i] G; cbn in *; try discriminate; [injection G as ->; reflexivity|]. rewrite <- IHg by assumption. reflexivity.
  - rewrite G. destruct (gstep g m) as [g' m'] eqn:E. rewrite (IH _ _ g'); [f_equal|].
    + clear. revert i. induction gs as [|y gs IHg]; intros [|i]; cbn; try reflexivity. rewrite IHg. reflexivity.
    + apply nth_gset_eq. apply nth_error_Some. congruence.
Qed.
(** the two calls of a race: same extender, both to Q, same levels, neither writes what the other uses *)
Definition racing (c c' : call) : Prop :=
  cToQ c = true /\ cToQ c' = true /\ cExt c = cExt c' /\ cLQ c = cLQ c' /\ cLP c = cLP c' /\
  ~ In (c2 c) [c1Q c'; c1P c'; c2 c'] /\ ~ In (c2 c') [c1Q c; c1P c; c2 c].
(** there is a schedule on which both calls finish, the second with the right result, while the first divides its own Q part with the remainders of the other call's P part *)
Theorem C64_shared_extender_mixes : forall n h m c c' X X' x, (n mod 8 = 0)%nat -> (0 < n)%nat ->
  ready n (history h) m c X -> ready n (history h) m c' X' -> racing c c' -> nth_error (exts (history h)) (cExt c) = Some (Some x) ->
  exists sch, let '(gs', m') := gsched sch (map (startCall n (history h)) [c; c']) m in
    (forall g, In g gs' -> gprog g = nil /\ gpanic g = false) /\ right_result n (history h) m' c' X' /\
    let D := product (firstn (S (cLP c)) (eP x)) in
    forall k, (k < n)%nat -> exists r, (D | X' k - r) /\ almost_reduced r D /\
      forall i, (i <= cLQ c)%nat -> 0 <= m' (c2 c, i, k) < nth i (eQ x) 0 /\ (nth i (eQ x) 0 | D * m' (c2 c, i, k) - (X k - r)).
Proof.
  intros n h m c c' X X' x N8 N0 R R' (T & T' & EE & ELQ & ELP & NA & NB) EX.
  destruct R as (x1 & E1 & MO & LQ & LP & L32 & I1 & I2 & I3 & _ & HQ & HP & LZ). rewrite EX in E1. injection E1 as <-. rewrite T in LZ.
  pose proof R' as R'0. destruct R' as (x1 & E1 & _ & _ & _ & _ & J1 & J2 & J3 & _ & HQ' & HP' & LZ'). rewrite <- EE, EX in E1. injection E1 as <-. rewrite T' in LZ'. rewrite <- ELQ in HQ', LZ'. rewrite <- ELP in HP'.
  assert (EX' : nth_error (exts (history h)) (cExt c') = Some (Some x)) by (rewrite <- EE; assumption).
  destruct (history_allocated h) as (_ & B & _). destruct (B _ _ EX) as (_ & _ & _ & NQ & _).
  assert (DN : forall z, In z (polys (history h)) -> poolQ x <> z) by (intros z Hz; congruence).
  set (Q := eQ x) in *. set (P := eP x) in *. set (lQ := cLQ c) in *. set (lP := cLP c) in *.
  assert (OK : forall a b Xa Xb k, holds m n Q lQ a Xa -> lazy m n Q lQ a -> holds m n P lP b Xb -> (k < n)%nat ->
     exists out r, ModDownQPtoQ Q P lQ lP (column m a k (S lQ)) (column m b k (S lP)) = Ok out /\ (product (firstn (S lP) P) | Xb k - r) /\ almost_reduced r (product (firstn (S lP) P)) /\
       forall i, (i <= lQ)%nat -> 0 <= nth i out 0 < nth i Q 0 /\ (nth i Q 0 | product (firstn (S lP) P) * nth i out 0 - (Xa k - r))).
  { intros a b Xa Xb k HA LA HB Hk. pose proof (proj1 (moduli_okbase _) MO) as OB. pose proof OB as [ND FO]. apply Forall_app in FO. destruct FO as [FQ FP].
    specialize (HA k Hk). specialize (HB k Hk).
    destruct (ModDownQPtoQ_ok Q P lQ lP (column m a k (S lQ)) (column m b k (S lP)) OB LQ LP) as (out & E & LO & BB); [lia|rewrite column_len; lia|exact (residues_words _ _ _ HB)| |].
    { intros i Hi. rewrite column_nth by lia. split; [|apply LA; [lia|assumption]]. destruct HA as [_ HA]. rewrite firstn_length in HA. specialize (HA i ltac:(lia)). rewrite column_nth in HA by lia. apply HA. }
    rewrite (firstn_all2 (column m b k (S lP))) in BB by (rewrite column_len; lia). cbv zeta in BB.
    assert (OKP : okbase P) by (split; [apply NoDup_app_remove_l in ND; assumption|assumption]).
    destruct (modup_int_x (firstn (S lP) P) (Xb k) _ (okbase_firstn _ _ OKP) ltac:(rewrite firstn_length; lia) HB) as [CC AA].
    exists out, (modup_int (firstn (S lP) P) (column m b k (S lP))). rewrite product_prodl. split; [exact E|]. split; [|split; [exact AA|]].
    - replace (Xb k - modup_int (firstn (S lP) P) (column m b k (S lP))) with (- (modup_int (firstn (S lP) P) (column m b k (S lP)) - Xb k)) by ring. apply Z.divide_opp_r. exact CC.
    - intros i Hi. destruct (BB i Hi) as [B1 B2]. split; [exact B1|]. destruct HA as [_ HA]. rewrite firstn_length in HA. specialize (HA i ltac:(lia)). rewrite nth_firstn in HA by lia. destruct HA as [_ HA].
      unfold eqz in B2. destruct B2 as [u B2]. destruct HA as [v HA]. exists (u + v). lia. }
  set (U := upProg n P Q lP lQ (c1P c) (poolQ x)). set (Dv := divProg n Q P lQ lP (c1Q c) (poolQ x) (c2 c)).
  set (U' := upProg n P Q lP lQ (c1P c') (poolQ x)). set (Dv' := divProg n Q P lQ lP (c1Q c') (poolQ x) (c2 c')).
  assert (S0 : map (startCall n (history h)) [c; c'] = [Gor (U ++ Dv) (fun _ _ => 0) false; Gor (U' ++ Dv') (fun _ _ => 0) false]).
  { cbn [map]. rewrite (startCall_eq n _ c x EX), (startCall_eq n _ c' x EX'). unfold callProg. rewrite T, T'. rewrite <- ELQ, <- ELP. reflexivity. }
  (* first call: extension *)
  destruct (upV_ok n P Q lP lQ (c1P c) (poolQ x) m N8 ltac:(intros ZE; apply (DN (c1P c) I2); congruence) LQ) with (r := fun _ _ : nat => 0) (m := m) as (r1 & m1 & P1 & _ & F1); [|reflexivity|].
  { intros k Hk. destruct (OK (c1Q c) (c1P c) X X k HQ LZ HP Hk) as (out & r & E & _). apply (gdiv_up Q P lQ lP lP _ _ out) in E. exact E. }
  assert (C1 : forall p k L, In p (polys (history h)) -> column m1 p k L = column m p k L). { intros p k L Hp. apply column_ext. intros i Hi. apply F1. intros (ZE & _). apply (DN p Hp). congruence. }
  (* the second call, whole *)
  destruct (upV_ok n P Q lP lQ (c1P c') (poolQ x) m1 N8 ltac:(intros ZE; apply (DN (c1P c') J2); congruence) LQ) with (r := fun _ _ : nat => 0) (m := m1) as (r2 & m2 & P2 & V2 & F2); [|reflexivity|].
  { intros k Hk. destruct (OK (c1Q c') (c1P c') X' X' k HQ' LZ' HP' Hk) as (out & r & E & _). apply (gdiv_up Q P lQ lP lP _ _ out) in E. rewrite C1 by assumption. exact E. }
  assert (C2 : forall p k L, In p (polys (history h)) -> column m2 p k L = column m p k L).
  { intros p k L Hp. rewrite <- (C1 p k L Hp). apply column_ext. intros i Hi. apply F2. intros (ZE & _). apply (DN p Hp). congruence. }
  assert (V2' : forall l, within (poolQ x) lQ n l -> m2 l = upV P Q lP lQ m (c1P c') l).
  { intros l Hl. rewrite (V2 l Hl). destruct l as [[p i] k]. unfold upV. rewrite C1 by assumption. reflexivity. }
  destruct (div_phase n Q P lQ lP lP (c1Q c') (poolQ x) (c2 c') m2 r2 m (c1P c') (DN _ J3) LQ) as (r3 & m3 & P3 & V3 & F3); trivial.
  { intros k Hk. rewrite C2 by assumption. destruct (OK (c1Q c') (c1P c') X' X' k HQ' LZ' HP' Hk) as (out & r & E & _). exists out. exact E. }
  assert (C3 : forall p k L, In p (polys (history h)) -> p <> c2 c' -> column m3 p k L = column m p k L).
  { intros p k L Hp NE. rewrite <- (C2 p k L Hp). apply column_ext. intros i Hi. apply F3. intros (ZE & _). congruence. }
  assert (NC : c1Q c <> c2 c') by (intros ZE; apply NB; left; assumption).
  (* first call: division *)
  destruct (div_phase n Q P lQ lP lP (c1Q c) (poolQ x) (c2 c) m3 r1 m (c1P c') (DN _ I3) LQ) as (r4 & m4 & P4 & V4 & F4); trivial.
  { intros k Hk. rewrite C3 by assumption. destruct (OK (c1Q c) (c1P c') X X' k HQ LZ HP' Hk) as (out & r & E & _). exists out. exact E. }
  { intros l Hl. rewrite F3; [apply V2'; assumption|]. destruct l as [[p i] k]. intros (ZE & _). destruct Hl as (ZF & _). apply (DN _ J3). congruence. }
  exists (repeat 0%nat (length U) ++ repeat 1%nat (length (U' ++ Dv')) ++ repeat 0%nat (length Dv)).
  rewrite S0. rewrite gsched_app. rewrite (sched_repeat 0 (length U) _ m (Gor (U ++ Dv) (fun _ _ => 0) false)) by reflexivity.
  rewrite (alone_run U Dv _ _ r1 m1 P1). cbn [fst snd gset]. rewrite gsched_app.
  rewrite (sched_repeat 1 _ _ m1 (Gor (U' ++ Dv') (fun _ _ => 0) false)) by reflexivity.
  assert (PU : prun (U' ++ Dv') (fun _ _ => 0) m1 = Ok (r3, m3)). { rewrite prun_app. unfold U'. rewrite P2. cbn [rbind]. exact P3. }
  rewrite (alone_done _ _ _ _ _ _ PU (le_n _)). cbn [fst snd gset].
  rewrite (sched_repeat 0 _ _ m3 (Gor Dv r1 false)) by reflexivity. rewrite (alone_done Dv _ _ _ _ _ P4 (le_n _)). cbn [fst snd gset].
  split; [intros g [<-|[<-|[]]]; split; reflexivity|]. split.
  - exists x. split; [exact EX'|]. rewrite T'. rewrite <- ELQ, <- ELP. intros k Hk.
    destruct (C09_moddown_floor Q P lQ lP (X' k) (column m (c1Q c') k (S lQ)) (column m (c1P c') k (S lP))) as (out & r & E & G1 & G2 & G3); try assumption; [apply HQ'; assumption| |apply HP'; assumption|].
    { intros i Hi. rewrite column_nth by lia. apply LZ'; [lia|assumption]. }
    exists r. split; [exact G1|]. split; [exact G2|].
    assert (CE : column m4 (c2 c') k (S lQ) = column m3 (c2 c') k (S lQ)). { apply column_ext. intros i Hi. apply F4. intros (ZE & _). apply NA. right. right. left. assumption. }
    rewrite CE. pose proof (V3 k Hk) as VK. rewrite C2 in VK by assumption. unfold ModDownQPtoQ in E. unfold gdiv in VK. rewrite E in VK.
    match type of VK with Ok ?a = Ok ?b => assert (EZ : a = b) by congruence end. rewrite <- EZ. exact G3.
  - cbv zeta. intros k Hk. destruct (OK (c1Q c) (c1P c') X X' k HQ LZ HP' Hk) as (out & r & E & G1 & G2 & G3). exists r. split; [exact G1|]. split; [exact G2|]. intros i Hi.
    pose proof (V4 k Hk) as VK. rewrite C3 in VK by assumption. unfold ModDownQPtoQ in E. unfold gdiv in VK. rewrite E in VK.
    match type of VK with Ok ?a = Ok ?b => assert (EZ : a = b) by congruence end. pose proof (G3 i Hi) as G. rewrite EZ in G. rewrite column_nth in G by lia. exact G.
Qed.
Print Assumptions C64_shared_extender_mixes.
(** so, unless the two inputs agree modulo D, the first call's result is wrong *)
Theorem C64_shared_extender_wrong : forall n h m c c' X X' x k, (n mod 8 = 0)%nat -> (k < n)%nat ->
  ready n (history h) m c X -> ready n (history h) m c' X' -> racing c c' -> nth_error (exts (history h)) (cExt c) = Some (Some x) ->
  let D := product (firstn (S (cLP c)) (eP x)) in
  ~ (D | X k - X' k) -> 3 * D < product (firstn (S (cLQ c)) (eQ x)) ->
  exists sch, let '(gs', m') := gsched sch (map (startCall n (history h)) [c; c']) m in
    (forall g, In g gs' -> gprog g = nil /\ gpanic g = false) /\ ~ right_result n (history h) m' c X.
Proof.
  intros n h m c c' X X' x k N8 Hk R R' RA EX D ND BIG.
  destruct (C64_shared_extender_mixes n h m c c' X X' x N8 ltac:(lia) R R' RA EX) as (sch & H). exists sch. destruct (gsched sch _ m) as [gs' m']. destruct H as (F & _ & MIX).
  split; [exact F|]. intros (x1 & E1 & RES). rewrite EX in E1. injection E1 as <-. destruct RA as (T & _). rewrite T in RES.
  destruct (MIX k Hk) as (r & D1 & A1 & O1). destruct (RES k Hk) as (r0 & D0 & A0 & _ & O0). cbv zeta in *. fold D in D1, A1, O1, D0, A0, O0.
  destruct R as (x1 & E1 & MO & LQ & LP & _). rewrite EX in E1. injection E1 as <-. apply moduli_okbase in MO. destruct MO as [NDP FO]. apply Forall_app in FO. destruct FO as [FQ _].
  assert (OKQ : okbase (eQ x)) by (split; [apply NoDup_app_remove_r in NDP; assumption|assumption]).
  assert (DV : (product (firstn (S (cLQ c)) (eQ x)) | r - r0)).
  { rewrite product_prodl. apply crt_eq; [apply okbase_firstn; assumption|]. intros i Hi. rewrite firstn_length in Hi. rewrite nth_firstn by lia.
    destruct (O1 i ltac:(lia)) as [_ O1i]. specialize (O0 i ltac:(rewrite firstn_length; lia)). rewrite nth_firstn in O0 by lia. rewrite column_nth in O0 by lia.
    assert (K : okq (nth i (eQ x) 0)) by (apply (proj1 (Forall_forall _ _) FQ); apply nth_In; lia). apply okq_lt in K.
    destruct D0 as [d D0]. assert (DP : D <> 0). { intros Z. unfold almost_reduced in A0. rewrite Z in A0. lia. }
    rewrite D0, Z.div_mul in O0 by assumption. set (q := nth i (eQ x) 0) in *.
    assert (O0' : (q | m' (c2 c, i, k) - d)). { rewrite O0. exists (- (d / q)). rewrite (Z.div_mod d q) at 2 by lia. ring. }
    unfold eqz. replace (r - r0) with ((D * m' (c2 c, i, k) - (X k - r)) - D * (m' (c2 c, i, k) - d)) by (replace (X k) with (d * D + r0) by lia; ring).
    apply Z.divide_sub_r; [exact O1i|]. apply Z.divide_mul_r. exact O0'. }
  assert (r = r0).
  { assert (DP : 0 < D) by (unfold almost_reduced in A0; lia). destruct DV as [u DV]. set (B := product (firstn (S (cLQ c)) (eQ x))) in *. unfold almost_reduced in A0, A1.
    assert (AB : Z.abs (r - r0) < 3 * D) by lia. rewrite DV in AB. destruct (Z.eq_dec u 0) as [->|NZ]; [lia|]. rewrite Z.abs_mul in AB. assert (1 <= Z.abs u) by lia. assert (Z.abs B = B) by lia. nia. }
  subst r0. apply ND. replace (X k - X' k) with ((X k - r) - (X' k - r)) by ring. apply Z.divide_sub_r; assumption.
Qed.
Print Assumptions C64_shared_extender_wrong.

(** ** A concrete case: degree 8, the moduli of C09's example, one extender, its shallow copy, and a copy of nil *)
Definition xh : list hop := [NewExtender exQ exP; NilExtender; ShallowCopyOf 0; ShallowCopyOf 1; NewPolynomial; NewPolynomial; NewPolynomial; NewPolynomial; NewPolynomial; NewPolynomial].
Definition xX (i k : nat) : Z := if (i =? 0)%nat then 12345678901234 + Z.of_nat k else 98765432109876 * Z.of_nat k.
(** polynomials 4 and 5 hold X 0, 7 and 8 hold X 1 *)
Definition xm : mem := fun l => let '(p, i, k) := l in
  if (p =? 4)%nat then xX 0 k mod nth i exQ 1 else if (p =? 5)%nat then xX 0 k mod nth i exP 1 else
  if (p =? 7)%nat then xX 1 k mod nth i exQ 1 else if (p =? 8)%nat then xX 1 k mod nth i exP 1 else 0.
Definition xc (e out : nat) : call := Call true e 3 1 4 5 out.
Definition xc' (e out : nat) : call := Call true e 3 1 7 8 out.
Lemma x_residues (f : nat -> Z) (Q : list Z) L : (forall q, In q Q -> 2 < q < 2 ^ 61) -> (L < length Q)%nat ->
  residues_of (f 0%nat) (firstn (S L) Q) (map (fun i => f 0%nat mod nth i Q 1) (seq 0 (S L))).
Proof.
  intros B LL. split; [rewrite map_length, seq_length, firstn_length; lia|]. intros i Hi. rewrite firstn_length in Hi. rewrite nth_firstn by lia.
  set (g := fun i => f 0%nat mod nth i Q 1). rewrite (nth_indep _ 0 (g 0%nat)) by (rewrite map_length, seq_length; lia). rewrite (map_nth g), seq_nth by lia. unfold g. cbn [plus].
  rewrite (nth_indep Q 1 0) by lia. assert (BQ : 2 < nth i Q 0 < 2 ^ 61) by (apply B; apply nth_In; lia). pose proof (Z.mod_pos_bound (f 0%nat) (nth i Q 0) ltac:(lia)).
  split; [lia|]. exists (- (f 0%nat / nth i Q 0)). rewrite (Z.div_mod (f 0%nat) (nth i Q 0)) at 2 by lia. ring.
Qed.
Lemma x_bounds : (forall q, In q exQ -> 2 < q < 2 ^ 61) /\ (forall q, In q exP -> 2 < q < 2 ^ 61).
Proof. split; intros q Hq; cbn in Hq; lia. Qed.
Lemma x_ready e out : (e = 0 \/ e = 2)%nat -> (out = 4 \/ out = 6)%nat -> ready 8 (history xh) xm (xc e out) (xX 0).
Proof.
  intros He Ho. exists (FBE exQ exP (if (e =? 0)%nat then 0%nat else 2%nat) (if (e =? 0)%nat then 1%nat else 3%nat)).
  split; [destruct He as [->| ->]; vm_compute; reflexivity|]. split; [exact exQP_moduli|]. split; [cbn; lia|]. split; [cbn; lia|]. split; [cbn; lia|].
  split; [left; reflexivity|]. split; [right; left; reflexivity|]. split; [destruct Ho as [->| ->]; vm_compute; auto|]. split; [discriminate|].
  split; [|split].
  - intros k Hk. apply (x_residues (fun _ => xX 0 k) exQ 3); [apply x_bounds|cbn; lia].
  - intros k Hk. apply (x_residues (fun _ => xX 0 k) exP 1); [apply x_bounds|cbn; lia].
  - cbn [cToQ xc]. intros i k Hi Hk. cbn [c1Q xc xm eQ]. change ((4 =? 4)%nat) with true. cbv iota. rewrite (nth_indep exQ 1 0) by (cbn in *; lia).
    assert (2 < nth i exQ 0 < 2 ^ 61) by (apply (proj1 x_bounds); apply nth_In; cbn in *; lia). pose proof (Z.mod_pos_bound (xX 0 k) (nth i exQ 0)). lia.
Qed.
Lemma x_ready' e out : (e = 0 \/ e = 2)%nat -> (out = 7 \/ out = 9)%nat -> ready 8 (history xh) xm (xc' e out) (xX 1).
Proof.
  intros He Ho. exists (FBE exQ exP (if (e =? 0)%nat then 0%nat else 2%nat) (if (e =? 0)%nat then 1%nat else 3%nat)).
  split; [destruct He as [->| ->]; vm_compute; reflexivity|]. split; [exact exQP_moduli|]. split; [cbn; lia|]. split; [cbn; lia|]. split; [cbn; lia|].
  split; [vm_compute; auto|]. split; [vm_compute; auto 6|]. split; [destruct Ho as [->| ->]; vm_compute; auto 8|]. split; [discriminate|].
  split; [|split].
  - intros k Hk. apply (x_residues (fun _ => xX 1 k) exQ 3); [apply x_bounds|cbn; lia].
  - intros k Hk. apply (x_residues (fun _ => xX 1 k) exP 1); [apply x_bounds|cbn; lia].
  - cbn [cToQ xc']. intros i k Hi Hk. cbn [c1Q xc' xm eQ]. change ((7 =? 4)%nat) with false. change ((7 =? 5)%nat) with false. change ((7 =? 7)%nat) with true. cbv iota. rewrite (nth_indep exQ 1 0) by (cbn in *; lia).
    assert (2 < nth i exQ 0 < 2 ^ 61) by (apply (proj1 x_bounds); apply nth_In; cbn in *; lia). pose proof (Z.mod_pos_bound (xX 1 k) (nth i exQ 0)). lia.
Qed.
(** the original works in place, its copy into a new polynomial *)
Example C64_nonvacuous_apart :
  (forall i c, nth_error [xc 0 4; xc' 2 9] i = Some c -> ready 8 (history xh) xm c (xX i)) /\
  (forall i j c c', i <> j -> nth_error [xc 0 4; xc' 2 9] i = Some c -> nth_error [xc 0 4; xc' 2 9] j = Some c' -> apart c c') /\
  nth_error (exts (history xh)) 3 = Some None.
Proof.
  split; [|split; [|vm_compute; reflexivity]].
  - intros [|[|[|i]]] c H; cbn in H; try discriminate; injection H as <-; [apply x_ready|apply x_ready']; auto.
  - intros [|[|[|i]]] [|[|[|j]]] c c' NE H H'; cbn in H, H'; try discriminate; try lia; injection H as <-; injection H' as <-; (split; [|split]; [cbn; lia|cbn; lia|cbn; lia]).
Qed.
Example C64_nonvacuous_race : ready 8 (history xh) xm (xc 0 4) (xX 0) /\ ready 8 (history xh) xm (xc' 0 9) (xX 1) /\ racing (xc 0 4) (xc' 0 9) /\
  ~ (product (firstn 2 exP) | xX 0 0 - xX 1 0) /\ 3 * product (firstn 2 exP) < product (firstn 4 exQ).
Proof.
  split; [apply x_ready; auto|]. split; [apply x_ready'; auto|]. split; [repeat split; cbn; lia|]. split; [|vm_compute; reflexivity].
  intros H. apply Z.mod_divide in H; [|vm_compute; discriminate]. vm_compute in H. discriminate.
Qed.

(** ** Calls that panic *)
(** a goroutine that reads some words and then makes a step that panics whatever it read *)
Definition doomed (loads : nat) (g : gor) : Prop :=
  (gpanic g = true /\ gprog g = nil) \/
  exists ls l f rest, gprog g = ls ++ Store l f :: rest /\ (forall r, f r = Panic) /\ (length ls <= loads)%nat /\ forall o, In o ls -> exists i k l', o = Load i k l'.
Lemma doomed_step k g m g' m' : doomed (S k) g -> gstep g m = (g', m') -> doomed k g' /\ (forall l, m' l = m l).
Proof.
  intros [[P E]|(ls & l & f & rest & E & F & L & A)] H; unfold gstep in H; rewrite E in H.
  - injection H as <- <-. split; [left; auto|reflexivity].
  - destruct ls as [|o ls]; cbn [app] in H.
    + rewrite F in H. injection H as <- <-. split; [left; auto|reflexivity].
    + destruct (A o ltac:(left; reflexivity)) as (i & j & l' & ->). injection H as <- <-. split; [|reflexivity]. right. exists ls, l, f, rest. cbn in *.
      split; [reflexivity|]. split; [assumption|]. split; [lia|]. intros o Ho. apply A. right. assumption.
Qed.
Lemma doomed_last g m g' m' : doomed 0 g -> gstep g m = (g', m') -> gpanic g' = true /\ gprog g' = nil.
Proof.
  intros [[P E]|(ls & l & f & rest & E & F & L & _)] H; unfold gstep in H; rewrite E in H.
  - injection H as <- <-. auto.
  - destruct ls; [|cbn in L; lia]. cbn [app] in H. rewrite F in H. injection H as <- <-. auto.
Qed.
Lemma dead_step g m g' m' : gpanic g = true /\ gprog g = nil -> gstep g m = (g', m') -> gpanic g' = true /\ gprog g' = nil.
Proof. intros [P E] H. unfold gstep in H. rewrite E in H. injection H as <- <-. auto. Qed.
Lemma doomed_sched sch : forall gs m i g k, nth_error gs i = Some g -> doomed k g -> (k < count i sch)%nat ->
  exists g', nth_error (fst (gsched sch gs m)) i = Some g' /\ gpanic g' = true /\ gprog g' = nil.
Proof.
  induction sch as [|j sch IH] using rev_ind.
  { intros gs m i g k _ _ H. cbn in H. lia. }
  intros gs m i g k G D C. clear IH.
  assert (INV : forall s, exists g', nth_error (fst (gsched s gs m)) i = Some g' /\ ((gpanic g' = true /\ gprog g' = nil) \/ (count i s <= k)%nat /\ doomed (k - count i s) g')).
  { intros s. induction s as [|a s IH] using rev_ind. { exists g. cbn. split; [assumption|]. right. split; [lia|]. rewrite Nat.sub_0_r. assumption. }
    destruct IH as (g1 & G1 & D1). rewrite gsched_app, count_snoc. set (gs1 := fst (gsched s gs m)) in *. set (m1 := snd (gsched s gs m)) in *. cbn [gsched].
    destruct (Nat.eq_dec a i) as [->|NE].
    - rewrite G1. destruct (gstep g1 m1) as [g2 m2] eqn:E2. cbn [fst]. exists g2. split. { apply nth_gset_eq. apply nth_error_Some. congruence. }
      destruct D1 as [D1|[L1 D1]]; [left; eapply dead_step; eassumption|].
      destruct (Nat.eq_dec (count i s) k) as [EQ|NEQ].
      + left. rewrite EQ, Nat.sub_diag in D1. eapply doomed_last; eassumption.
      + right. split; [lia|]. replace (k - count i s)%nat with (S (k - (count i s + 1))) in D1 by lia. destruct (doomed_step _ _ _ _ _ D1 E2) as [D2 _]. exact D2.
    - exists g1. rewrite Nat.add_0_r. split; [|exact D1]. destruct (nth_error gs1 a) as [ga|] eqn:GA; [|exact G1].
      destruct (gstep ga m1) as [g2 m2]. cbn [fst]. rewrite nth_gset_neq by congruence. exact G1. }
  destruct (INV (sch ++ [j])) as (g' & G' & [D'|[L _]]); [|lia]. exists g'. split; [exact G'|exact D'].
Qed.
Lemma table_len Q P : length (params_table Q P) = length Q.
Proof. unfold params_table. rewrite map_length, seq_length. reflexivity. Qed.
Lemma up_doomed n Q P lQ lP src dst rest r : (8 <= n)%nat -> (length Q <= lQ)%nat ->
  doomed (8 * S lQ) (Gor (upProg n Q P lQ lP src dst ++ rest) r false).
Proof.
  intros N8 LQ. right.
  assert (PAN : forall rows, ModUp Q P lQ lP rows = Panic).
  { intros rows. unfold ModUp, idx. rewrite (proj2 (nth_error_None _ _)) by (rewrite table_len; assumption). reflexivity. }
  assert (B : exists b, (n / 8 = S b)%nat). { assert (1 <= n / 8)%nat by (apply Nat.div_le_lower_bound; lia). exists (n / 8 - 1)%nat. lia. }
  destruct B as [b B]. unfold upProg. rewrite B. cbn [seq flat_map gprog]. unfold upBlock at 1.
  change (seq 0 (S lP)) with (0%nat :: seq 1 lP). change (list_prod (0%nat :: seq 1 lP) (seq 0 8)) with ((0, 0)%nat :: tl (list_prod (0%nat :: seq 1 lP) (seq 0 8))).
  set (T := tl _). cbn [map fst snd]. rewrite <- !app_assoc. cbn [app].
  eexists. eexists. eexists. eexists. split; [reflexivity|]. split; [|split].
  - intros r'. rewrite PAN. reflexivity.
  - rewrite map_length, prod_length, !seq_length. lia.
  - intros o Ho. apply in_map_iff in Ho as ([i k] & <- & _). eexists. eexists. eexists. reflexivity.
Qed.
(** Whatever else runs: a call on a nil extender, and a call whose level is beyond the moduli of the extender, panics. *)
Theorem C64_panics : forall n h m (calls : list call) sch i c, (8 <= n)%nat -> nth_error calls i = Some c ->
  (nth_error (exts (history h)) (cExt c) = Some None \/
   exists x, nth_error (exts (history h)) (cExt c) = Some (Some x) /\ if cToQ c then (length (eP x) <= cLP c)%nat else (length (eQ x) <= cLQ c)%nat) ->
  (8 * S (if cToQ c then cLP c else cLQ c) < count i sch)%nat ->
  exists g, nth_error (fst (gsched sch (map (startCall n (history h)) calls) m)) i = Some g /\ gpanic g = true /\ gprog g = nil.
Proof.
  intros n h m calls sch i c N8 C H CNT.
  assert (G : nth_error (map (startCall n (history h)) calls) i = Some (startCall n (history h) c)) by (rewrite nth_error_map, C; reflexivity).
  eapply doomed_sched; [exact G| |exact CNT]. destruct H as [H|(x & H & L)].
  - left. unfold startCall. rewrite H. cbn. auto.
  - rewrite (startCall_eq n _ c x H). unfold callProg. destruct (cToQ c); apply up_doomed; assumption.
Qed.
(** a nil extender, and an extender with two special moduli called at P level 5 *)
Example C64_panics_nonvacuous : let h := [NilExtender; NewExtender exQ exP; NewPolynomial; NewPolynomial; NewPolynomial] in
  exists g0 g1, nth_error (fst (gsched (repeat 0 49 ++ repeat 1 49)%nat (map (startCall 8 (history h)) [Call true 0 0 5 2 3 4; Call true 1 0 5 2 3 4]) (fun _ => 0))) 0 = Some g0 /\ gpanic g0 = true /\
    nth_error (fst (gsched (repeat 0 49 ++ repeat 1 49)%nat (map (startCall 8 (history h)) [Call true 0 0 5 2 3 4; Call true 1 0 5 2 3 4]) (fun _ => 0))) 1 = Some g1 /\ gpanic g1 = true.
Proof.
  intros h.
  destruct (C64_panics 8 h (fun _ => 0) [Call true 0 0 5 2 3 4; Call true 1 0 5 2 3 4] (repeat 0 49 ++ repeat 1 49)%nat 0 (Call true 0 0 5 2 3 4)) as (g0 & A0 & B0 & _); [lia|reflexivity|left; reflexivity|vm_compute; lia|].
  destruct (C64_panics 8 h (fun _ => 0) [Call true 0 0 5 2 3 4; Call true 1 0 5 2 3 4] (repeat 0 49 ++ repeat 1 49)%nat 1 (Call true 1 0 5 2 3 4)) as (g1 & A1 & B1 & _); [lia|reflexivity| |vm_compute; lia|].
  { right. eexists. split; [reflexivity|]. cbn [cToQ eP cLP]. vm_compute. lia. }
  exists g0, g1. split; [exact A0|]. split; [exact B0|]. split; [exact A1|exact B1].
Qed.
