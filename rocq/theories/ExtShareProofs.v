(** Proofs about ExtShare: goroutines that do not write what others use are independent; what a call computes alone. *)
From Verif Require Import Base BasisExt ExtShare.
From Coq Require Import ZArith List Lia.
Import ListNotations.
Open Scope Z_scope.

Lemma loc_eqb_ok l l' : loc_eqb l l' = true <-> l = l'.
Proof.
  destruct l as [[p i] x], l' as [[p' i'] x']. cbn. rewrite !Bool.andb_true_iff, !Nat.eqb_eq. split.
  - intros [[-> ->] ->]. reflexivity.
  - intros E. injection E as -> -> ->. auto.
Qed.
Lemma loc_eqb_refl l : loc_eqb l l = true.
Proof. apply loc_eqb_ok. reflexivity. Qed.
Lemma loc_eqb_neq l l' : l <> l' -> loc_eqb l l' = false.
Proof. intros H. destruct (loc_eqb l l') eqn:E; [|reflexivity]. apply loc_eqb_ok in E. contradiction. Qed.
Lemma mupd_eq m l v : mupd m l v l = v.
Proof. unfold mupd. rewrite loc_eqb_refl. reflexivity. Qed.
Lemma mupd_neq m l v l' : l <> l' -> mupd m l v l' = m l'.
Proof. intros H. unfold mupd. rewrite loc_eqb_neq by assumption. reflexivity. Qed.

(** ** what a program reads and writes *)
Definition rds (p : list mop) (l : loc) : Prop := exists i k, In (Load i k l) p.
Definition wrs (p : list mop) (l : loc) : Prop := exists f, In (Store l f) p.
Definition uses (p : list mop) (l : loc) : Prop := rds p l \/ wrs p l.
Definition count (i : nat) (sch : list nat) : nat := count_occ Nat.eq_dec sch i.
Fixpoint alone (n : nat) (g : gor) (m : mem) : gor * mem :=
  match n with O => (g, m) | S n => let '(g', m') := gstep g m in alone n g' m' end.

Lemma gstep_sub g m g' m' : gstep g m = (g', m') -> incl (gprog g') (gprog g).
Proof.
  unfold gstep. destruct (gprog g) as [|[i k l|l f] rest] eqn:E.
  - intros H. injection H as <- _. rewrite E. apply incl_refl.
  - intros H. injection H as <- _. cbn. apply incl_tl, incl_refl.
  - destruct (f (gregs g)); intros H; injection H as <- _; cbn; [apply incl_tl, incl_refl|]. intros z [].
Qed.
Lemma gstep_frame g m g' m' l : gstep g m = (g', m') -> ~ wrs (gprog g) l -> m' l = m l.
Proof.
  unfold gstep. destruct (gprog g) as [|[i k l'|l' f] rest] eqn:E; intros H NW.
  - injection H as _ <-. reflexivity.
  - injection H as _ <-. reflexivity.
  - destruct (f (gregs g)); injection H as _ <-; [|reflexivity]. apply mupd_neq. intros ->. apply NW. exists f. left. reflexivity.
Qed.
(** a step depends only on what it reads, and changes only what it writes *)
Lemma gstep_local g m1 m2 : (forall l, uses (gprog g) l -> m1 l = m2 l) ->
  fst (gstep g m1) = fst (gstep g m2) /\ forall l, uses (gprog g) l -> snd (gstep g m1) l = snd (gstep g m2) l.
Proof.
  intros A. unfold gstep. destruct (gprog g) as [|[i k l'|l' f] rest] eqn:E.
  - split; [reflexivity|]. exact A.
  - cbn. rewrite (A l'); [split; [reflexivity|exact A]|]. left. exists i, k. left. reflexivity.
  - destruct (f (gregs g)) as [v|]; cbn; (split; [reflexivity|]); [|exact A]. intros l U. unfold mupd. destruct (loc_eqb l' l); [reflexivity|]. apply A. assumption.
Qed.
Lemma uses_sub p p' l : incl p' p -> uses p' l -> uses p l.
Proof. intros I [(i & k & H)|(f & H)]; [left; exists i, k|right; exists f]; apply I; assumption. Qed.
Lemma wrs_sub p p' l : incl p' p -> wrs p' l -> wrs p l.
Proof. intros I (f & H). exists f. apply I. assumption. Qed.
Lemma alone_S n g m : alone (S n) g m = gstep (fst (alone n g m)) (snd (alone n g m)).
Proof.
  revert g m. induction n as [|n IH]; intros g m.
  - cbn. destruct (gstep g m). reflexivity.
  - change (alone (S (S n)) g m) with (let '(g', m') := gstep g m in alone (S n) g' m'). cbn [alone].
    destruct (gstep g m) as [g' m'] eqn:E. rewrite <- IH. reflexivity.
Qed.
Lemma alone_sub n g m : incl (gprog (fst (alone n g m))) (gprog g).
Proof.
  induction n as [|n IH]; [apply incl_refl|]. rewrite alone_S. destruct (gstep (fst (alone n g m)) (snd (alone n g m))) as [g' m'] eqn:E. cbn.
  eapply incl_tran; [eapply gstep_sub; exact E|exact IH].
Qed.
Lemma nth_gset_eq i x l : (i < length l)%nat -> nth_error (gset i x l) i = Some x.
Proof. revert i. induction l as [|y l IH]; intros [|i] H; cbn in *; try lia; [reflexivity|]. apply IH. lia. Qed.
Lemma nth_gset_neq i j x l : i <> j -> nth_error (gset i x l) j = nth_error l j.
Proof. revert i j. induction l as [|y l IH]; intros [|i] [|j] H; cbn; try reflexivity; try lia. apply IH. lia. Qed.
Lemma gset_len i x l : length (gset i x l) = length l.
Proof. revert i. induction l as [|y l IH]; intros [|i]; cbn; try reflexivity. rewrite IH. reflexivity. Qed.
Lemma count_snoc i sch j : count i (sch ++ [j]) = (count i sch + if Nat.eq_dec j i then 1 else 0)%nat.
Proof. unfold count. rewrite count_occ_app. cbn. destruct (Nat.eq_dec j i); reflexivity. Qed.
Lemma gsched_app s1 s2 gs m : gsched (s1 ++ s2) gs m = gsched s2 (fst (gsched s1 gs m)) (snd (gsched s1 gs m)).
Proof.
  revert gs m. induction s1 as [|i s1 IH]; intros gs m; [reflexivity|]. cbn. destruct (nth_error gs i) as [g|]; [|apply IH].
  destruct (gstep g m). apply IH.
Qed.

(** nobody writes what another one reads or writes *)
Definition independent (ps : list (list mop)) : Prop :=
  forall i j p q l, i <> j -> nth_error ps i = Some p -> nth_error ps j = Some q -> wrs p l -> ~ uses q l.
(** under every schedule every goroutine is where it would be alone after as many steps *)
Lemma sched_alone gs m : independent (map gprog gs) -> forall sch i g, nth_error gs i = Some g ->
  nth_error (fst (gsched sch gs m)) i = Some (fst (alone (count i sch) g m)) /\
  forall l, uses (gprog g) l -> snd (gsched sch gs m) l = snd (alone (count i sch) g m) l.
Proof.
  intros IND sch. induction sch as [|j sch IH] using rev_ind; intros i g G.
  - cbn. split; [assumption|]. reflexivity.
  - rewrite gsched_app. set (gs1 := fst (gsched sch gs m)) in *. set (m1 := snd (gsched sch gs m)) in *. cbn.
    destruct (IH i g G) as [A B]. rewrite count_snoc.
    destruct (nth_error gs1 j) as [gj|] eqn:J.
    + destruct (gstep gj m1) as [g' m'] eqn:E. cbn.
      destruct (Nat.eq_dec j i) as [->|NE].
      * rewrite A in J. injection J as J. rewrite Nat.add_1_r, alone_S.
        pose proof (gstep_local gj m1 (snd (alone (count i sch) g m))) as L. rewrite J.
        destruct L as [L1 L2]. { intros l U. apply B. rewrite <- J in U. eapply uses_sub; [|exact U]. apply alone_sub. }
        rewrite E in L1, L2. cbn in L1, L2. split.
        -- rewrite nth_gset_eq; [rewrite L1; reflexivity|]. apply nth_error_Some. rewrite A. discriminate.
        -- intros l U. destruct (gstep gj (snd (alone (count i sch) g m))) as [g2 m2] eqn:E2. cbn in *.
           assert (D : wrs (gprog gj) l \/ ~ wrs (gprog gj) l).
           { clear. induction (gprog gj) as [|[i k l'|l' f] p IHp]; [right; intros [f []]| |].
             - destruct IHp as [(f & H)|H]; [left; exists f; right; assumption|]. right. intros (f & [H'|H']); [discriminate|]. apply H. exists f. assumption.
             - destruct (loc_eqb l' l) eqn:EL; [left; apply loc_eqb_ok in EL; subst; exists f; left; reflexivity|].
               destruct IHp as [(f' & H)|H]; [left; exists f'; right; assumption|]. right. intros (f' & [H'|H']).
               + injection H' as -> ->. rewrite loc_eqb_refl in EL. discriminate.
               + apply H. exists f'. assumption. }
           destruct D as [D|D]; [apply L2; right; assumption|].
           rewrite (gstep_frame _ _ _ _ l E D), (gstep_frame _ _ _ _ l E2 D). apply B. assumption.
      * rewrite Nat.add_0_r. rewrite nth_gset_neq by lia. split; [assumption|]. intros l U. rewrite <- (B l U).
        eapply gstep_frame; [exact E|]. intros W.
        assert (LJ : (j < length gs)%nat).
        { assert ((j < length gs1)%nat) by (apply nth_error_Some; rewrite J; discriminate).
          assert (LL : length gs1 = length gs); [|lia]. unfold gs1. clear. revert gs m. induction sch as [|k sch IHs]; intros gs m; cbn; [reflexivity|].
          destruct (nth_error gs k); [|apply IHs]. destruct (gstep g m). rewrite IHs. apply gset_len. }
        destruct (nth_error gs j) as [gj0|] eqn:GJ; [|apply nth_error_None in GJ; lia].
        destruct (IH j gj0 GJ) as [AJ _]. rewrite AJ in J. injection J as J.
        eapply (IND j i (gprog gj0) (gprog g) l NE); [rewrite nth_error_map, GJ; reflexivity|rewrite nth_error_map, G; reflexivity| |exact U].
        eapply wrs_sub; [|exact W]. rewrite <- J. apply alone_sub.
    + cbn. destruct (Nat.eq_dec j i) as [->|NE]; [rewrite A in J; discriminate|]. rewrite Nat.add_0_r. split; assumption.
Qed.
Lemma sched_frame gs m sch l : (forall g, In g gs -> ~ wrs (gprog g) l) -> snd (gsched sch gs m) l = m l.
Proof.
  revert gs m. induction sch as [|i sch IH]; intros gs m NW; [reflexivity|]. cbn. destruct (nth_error gs i) as [g|] eqn:G; [|apply IH; assumption].
  destruct (gstep g m) as [g' m'] eqn:E. rewrite IH.
  - eapply gstep_frame; [exact E|]. apply NW. eapply nth_error_In; exact G.
  - intros x X. apply In_nth_error in X. destruct X as [j J]. destruct (Nat.eq_dec i j) as [->|NE].
    + rewrite nth_gset_eq in J by (apply nth_error_Some; congruence). injection J as <-. intros W. eapply NW; [eapply nth_error_In; exact G|]. eapply wrs_sub; [|exact W]. eapply gstep_sub; exact E.
    + rewrite nth_gset_neq in J by assumption. apply NW. eapply nth_error_In; exact J.
Qed.

(** ** running a program to its end *)
Fixpoint prun (p : list mop) (r : regs) (m : mem) : res (regs * mem) :=
  match p with
  | nil => Ok (r, m)
  | Load i k l :: p => prun p (rupd r i k (m l)) m
  | Store l f :: p => v <- f r ;; prun p r (mupd m l v)
  end.
Lemma prun_app p q r m : prun (p ++ q) r m = ('(r', m') <- prun p r m ;; prun q r' m').
Proof.
  revert r m. induction p as [|[i k l|l f] p IH]; intros r m; cbn; [reflexivity|apply IH|]. destruct (f r); cbn; [apply IH|reflexivity].
Qed.
Lemma alone_nil n r b m : alone n (Gor nil r b) m = (Gor nil r b, m).
Proof. induction n as [|n IH]; [reflexivity|]. cbn. exact IH. Qed.
Lemma alone_run p q r m r' m' : prun p r m = Ok (r', m') -> alone (length p) (Gor (p ++ q) r false) m = (Gor q r' false, m').
Proof.
  revert r m. induction p as [|[i k l|l f] p IH]; intros r m H; cbn in *; [injection H as -> ->; reflexivity|apply IH; assumption|].
  destruct (f r) as [v|]; [|discriminate]. cbn in H. cbn. apply IH. assumption.
Qed.
Lemma alone_add a b g m : alone (a + b) g m = alone b (fst (alone a g m)) (snd (alone a g m)).
Proof. revert g m. induction a as [|a IH]; intros g m; [reflexivity|]. cbn. destruct (gstep g m). apply IH. Qed.
Lemma alone_done p r m r' m' n : prun p r m = Ok (r', m') -> (length p <= n)%nat -> alone n (Gor p r false) m = (Gor nil r' false, m').
Proof.
  intros H L. replace n with (length p + (n - length p))%nat by lia. rewrite alone_add.
  pose proof (alone_run p nil r m r' m' H) as A. rewrite app_nil_r in A. rewrite A. cbn. apply alone_nil.
Qed.
(** on the way nothing panics, and the program is at its end only after all its steps *)
Lemma alone_prefix p r m r' m' n : prun p r m = Ok (r', m') -> (n <= length p)%nat ->
  gpanic (fst (alone n (Gor p r false) m)) = false /\ length (gprog (fst (alone n (Gor p r false) m))) = (length p - n)%nat.
Proof.
  revert r m n. induction p as [|[i k l|l f] p IH]; intros r m n H L.
  - assert (n = 0%nat) by (cbn in L; lia). subst. cbn. auto.
  - destruct n as [|n]; [cbn; auto|]. cbn in *. apply IH; [assumption|lia].
  - destruct n as [|n]; [cbn; auto|]. cbn in *. destruct (f r) as [v|]; [|discriminate]. cbn in *. apply IH; [assumption|lia].
Qed.

Lemma ex_dec {A} (P : A -> Prop) ls : (forall a, P a \/ ~ P a) -> (exists a, In a ls /\ P a) \/ ~ exists a, In a ls /\ P a.
Proof.
  intros D. induction ls as [|a ls [(b & I & H)|N]]; [right; intros (b & [] & _)|left; exists b; split; [right; assumption|assumption]|].
  destruct (D a) as [H|H]; [left; exists a; split; [left; reflexivity|assumption]|]. right. intros (b & [<-|I] & Hb); [contradiction|]. apply N. exists b. split; assumption.
Qed.
Lemma loc_dec (l l' : loc) : l = l' \/ l <> l'.
Proof. destruct (loc_eqb l l') eqn:E; [left; apply loc_eqb_ok; assumption|right]. intros ->. rewrite loc_eqb_refl in E. discriminate. Qed.

(** ** what the loops compute *)
(** running [p] from any memory that agrees with m0 on D sets [reg] to V and changes nothing else *)
Definition wr (m0 : mem) (p : list mop) (D reg : loc -> Prop) (V : loc -> Z) : Prop :=
  forall r m, (forall l, D l -> m l = m0 l) -> exists r' m', prun p r m = Ok (r', m') /\ (forall l, reg l -> m' l = V l) /\ (forall l, ~ reg l -> m' l = m l).
Lemma wr_flat {A} m0 (body : A -> list mop) (D reg : A -> loc -> Prop) V (ls : list A) : NoDup ls ->
  (forall a, In a ls -> wr m0 (body a) (D a) (reg a) V) ->
  (forall a b l, In a ls -> In b ls -> a <> b -> D a l -> ~ reg b l) -> (forall a l, reg a l \/ ~ reg a l) ->
  wr m0 (flat_map body ls) (fun l => exists a, In a ls /\ D a l) (fun l => exists a, In a ls /\ reg a l) V.
Proof.
  intros ND. induction ls as [|a ls IH]; intros H DR DEC r m AG.
  - exists r, m. cbn. split; [reflexivity|]. split; [intros l (x & [] & _)|reflexivity].
  - inversion ND as [|? ? NI ND']; subst. cbn [flat_map]. rewrite prun_app.
    destruct (H a (or_introl eq_refl) r m) as (r1 & m1 & E1 & A1 & B1). { intros l Dl. apply AG. exists a. split; [left; reflexivity|assumption]. }
    rewrite E1. cbn.
    destruct (IH ND' (fun b Hb => H b (or_intror Hb)) (fun b c l Hb Hc => DR b c l (or_intror Hb) (or_intror Hc)) DEC r1 m1) as (r2 & m2 & E2 & A2 & B2).
    { intros l (b & Hb & Db). rewrite B1; [apply AG; exists b; split; [right; assumption|assumption]|]. apply (DR b a l); [right; assumption|left; reflexivity| |assumption]. congruence. }
    exists r2, m2. split; [exact E2|]. split.
    + intros l (b & [<-|Hb] & R).
      * destruct (ex_dec (fun c => reg c l) ls (fun c => DEC c l)) as [X|X]; [apply A2; assumption|]. rewrite B2 by assumption. apply A1. assumption.
      * apply A2. exists b. split; assumption.
    + intros l NR. rewrite B2; [apply B1|]; intros R; apply NR; [exists a; split; [left; reflexivity|assumption]|]. destruct R as (b & Hb & Rb). exists b. split; [right; assumption|assumption].
Qed.
Lemma run_loads (es : list (nat * nat)) (g : nat * nat -> loc) r m : exists r',
  prun (map (fun e => Load (fst e) (snd e) (g e)) es) r m = Ok (r', m) /\ forall e, In e es -> r' (fst e) (snd e) = m (g e).
Proof.
  assert (K : forall es r, exists r', prun (map (fun e => Load (fst e) (snd e) (g e)) es) r m = Ok (r', m) /\
     forall e, (In e es \/ r (fst e) (snd e) = m (g e)) -> r' (fst e) (snd e) = m (g e)).
  { clear es r. induction es as [|e es IH]; intros r; cbn.
    - exists r. split; [reflexivity|]. intros e [[]|H]. assumption.
    - destruct (IH (rupd r (fst e) (snd e) (m (g e)))) as (r' & E & H). exists r'. split; [exact E|]. intros e' He. apply H.
      destruct e as [i k], e' as [i' k']. cbn in *. unfold rupd. destruct ((i =? i') && (k =? k'))%nat eqn:Q.
      + apply Bool.andb_true_iff in Q. rewrite !Nat.eqb_eq in Q. destruct Q as [-> ->]. right. reflexivity.
      + destruct He as [[He|He]|He]; [injection He as -> ->; rewrite !Nat.eqb_refl in Q; discriminate|left; assumption|right; assumption]. }
  destruct (K es r) as (r' & E & H). exists r'. split; [exact E|]. intros e He. apply H. left. assumption.
Qed.
Lemma run_stores (es : list (nat * nat)) (g : nat * nat -> loc) (f : nat * nat -> regs -> res Z) (V : loc -> Z) r m :
  (forall e, In e es -> f e r = Ok (V (g e))) -> exists m',
  prun (map (fun e => Store (g e) (f e)) es) r m = Ok (r, m') /\ (forall e, In e es -> m' (g e) = V (g e)) /\ (forall l, (forall e, In e es -> g e <> l) -> m' l = m l).
Proof.
  revert m. induction es as [|e es IH]; intros m H; cbn.
  - exists m. split; [reflexivity|]. split; [intros e []|reflexivity].
  - rewrite (H e (or_introl eq_refl)). cbn. destruct (IH (mupd m (g e) (V (g e))) (fun x Hx => H x (or_intror Hx))) as (m' & E & A & B).
    exists m'. split; [exact E|]. split.
    + intros x [<-|Hx]; [|apply A; assumption]. destruct (ex_dec (fun y => g y = g e) es (fun y => loc_dec (g y) (g e))) as [(y & Hy & Ey)|N].
      * rewrite <- Ey. apply A. assumption.
      * rewrite B; [apply mupd_eq|]. intros y Hy Ey. apply N. exists y. split; assumption.
    + intros l NL. rewrite B; [apply mupd_neq; apply NL; left; reflexivity|]. intros y Hy. apply NL. right. assumption.
Qed.

(** a column of a polynomial in memory *)
Definition column (m : mem) (p x n : nat) : list Z := map (fun i => m (p, i, x)) (seq 0 n).
Lemma column_nth m p x n i : (i < n)%nat -> nth i (column m p x n) 0 = m (p, i, x).
Proof. intros H. unfold column. rewrite (nth_indep _ 0 (m (p, 0%nat, x))) by (rewrite map_length, seq_length; assumption). rewrite (map_nth (fun i => m (p, i, x))), seq_nth by assumption. reflexivity. Qed.
Lemma column_len m p x n : length (column m p x n) = n.
Proof. unfold column. rewrite map_length, seq_length. reflexivity. Qed.
Lemma column_ext m m' p x n : (forall i, (i < n)%nat -> m (p, i, x) = m' (p, i, x)) -> column m p x n = column m' p x n.
Proof. intros H. apply map_ext_in. intros i Hi. apply in_seq in Hi. apply H. lia. Qed.
(** the words of rows 0..L of a polynomial *)
Definition within (p L n : nat) (l : loc) : Prop := let '(p', i, x) := l in p' = p /\ (i <= L)%nat /\ (x < n)%nat.

Lemma up_ok n Q P lQ lP src dst m0 (V : loc -> Z) : (n mod 8 = 0)%nat -> src <> dst ->
  (forall x, (x < n)%nat -> exists out, ModUp Q P lQ lP (column m0 src x (S lQ)) = Ok out /\ length out = S lP /\ forall j, (j <= lP)%nat -> V (dst, j, x) = nth j out 0) ->
  wr m0 (upProg n Q P lQ lP src dst) (within src lQ n) (within dst lP n) V.
Proof.
  intros N8 NE H. pose proof (Nat.div_mod n 8 ltac:(lia)) as DM. rewrite N8, Nat.add_0_r in DM.
  assert (K : wr m0 (upProg n Q P lQ lP src dst)
     (fun l => exists b, In b (seq 0 (n / 8)) /\ (let '(p, i, x) := l in p = src /\ (i <= lQ)%nat /\ (8 * b <= x < 8 * b + 8)%nat))
     (fun l => exists b, In b (seq 0 (n / 8)) /\ (let '(p, i, x) := l in p = dst /\ (i <= lP)%nat /\ (8 * b <= x < 8 * b + 8)%nat)) V).
  { unfold upProg. apply (wr_flat m0 (upBlock Q P lQ lP src dst)
       (fun b l => let '(p, i, x) := l in p = src /\ (i <= lQ)%nat /\ (8 * b <= x < 8 * b + 8)%nat)
       (fun b l => let '(p, i, x) := l in p = dst /\ (i <= lP)%nat /\ (8 * b <= x < 8 * b + 8)%nat)); [apply seq_NoDup| | |].
    - intros b Hb. apply in_seq in Hb. intros r m AG. unfold upBlock. rewrite prun_app.
      destruct (run_loads (list_prod (seq 0 (S lQ)) (seq 0 8)) (fun ik => (src, fst ik, 8 * b + snd ik)%nat) r m) as (r1 & E1 & R1).
      rewrite E1. cbn [rbind].
      destruct (run_stores (list_prod (seq 0 (S lP)) (seq 0 8)) (fun jk => (dst, fst jk, 8 * b + snd jk)%nat)
         (fun jk r => out <- ModUp Q P lQ lP (map (fun i => r i (snd jk)) (seq 0 (S lQ))) ;; idx out (fst jk)) V r1 m) as (m2 & E2 & A2 & B2).
      { intros [j k] Hjk. apply in_prod_iff in Hjk. destruct Hjk as [Hj Hk]. apply in_seq in Hj, Hk. cbn [fst snd].
        destruct (H (8 * b + k)%nat ltac:(lia)) as (out & MU & LO & VO).
        replace (map (fun i => r1 i k) (seq 0 (S lQ))) with (column m0 src (8 * b + k) (S lQ)).
        - rewrite MU. cbn [rbind]. unfold idx. rewrite (nth_error_nth' out 0) by lia. rewrite VO by lia. reflexivity.
        - apply map_ext_in. intros i Hi. symmetry. etransitivity; [apply (R1 (i, k)); apply in_prod; [assumption|apply in_seq; lia]|]. apply in_seq in Hi. apply AG. cbn [fst snd]. lia. }
      exists r1, m2. split; [exact E2|]. split.
      + intros [[p i] x] (-> & Hi & Hx). pose proof (A2 (i, x - 8 * b)%nat ltac:(apply in_prod; apply in_seq; lia)) as Z. cbn [fst snd] in Z. replace (8 * b + (x - 8 * b))%nat with x in Z by lia. exact Z.
      + intros l NL. apply B2. intros [j k] Hjk E. apply in_prod_iff in Hjk. destruct Hjk as [Hj Hk]. apply in_seq in Hj, Hk. apply NL. rewrite <- E. cbn [fst snd]. lia.
    - intros a b [[p i] x] _ _ NAB (-> & _) (E & _). congruence.
    - intros a [[p i] x]. destruct (Nat.eq_dec p dst) as [->|NP]; [|right; intros [E _]; contradiction].
      destruct (le_dec i lP); [|right; lia]. destruct (le_dec (8 * a) x); [|right; lia]. destruct (lt_dec x (8 * a + 8)); [left|right]; lia. }
  intros r m AG. destruct (K r m) as (r' & m' & E & A & B).
  { intros [[p i] x] (b & Hb & -> & Hi & Hx). apply in_seq in Hb. apply AG. cbn. lia. }
  exists r', m'. split; [exact E|]. split.
  - intros [[p i] x] (-> & Hi & Hx). apply A. exists (x / 8)%nat. pose proof (Nat.div_mod x 8 ltac:(lia)). pose proof (Nat.mod_upper_bound x 8 ltac:(lia)).
    split; [apply in_seq; split; [lia|]; apply Nat.div_lt_upper_bound; lia|]. lia.
  - intros [[p i] x] NL. apply B. intros (b & Hb & -> & Hi & Hx). apply in_seq in Hb. apply NL. cbn. lia.
Qed.
Lemma nodup_app_intro {A} (l l' : list A) : NoDup l -> NoDup l' -> (forall x, In x l -> ~ In x l') -> NoDup (l ++ l').
Proof.
  induction 1 as [|a l NI ND IH]; intros N' D; cbn; [assumption|]. constructor.
  - intros I. apply in_app_or in I. destruct I as [I|I]; [contradiction|]. apply (D a); [left; reflexivity|assumption].
  - apply IH; [assumption|]. intros x Hx. apply D. right. assumption.
Qed.
Lemma nodup_prod {A B} (l : list A) (l' : list B) : NoDup l -> NoDup l' -> NoDup (list_prod l l').
Proof.
  induction 1 as [|a l NI ND IH]; intros N'; cbn; [constructor|]. apply nodup_app_intro; [apply FinFun.Injective_map_NoDup; [intros x y E; congruence|assumption]|apply IH; assumption|].
  intros [x y] H1 H2. apply in_map_iff in H1. destruct H1 as (z & E & _). injection E as <- <-. apply in_prod_iff in H2. apply NI. apply H2.
Qed.

Lemma div_ok n Q P L lvl p1 pool p2 m0 md (V : loc -> Z) : idx (genModDownParams Q P) lvl = Ok md -> pool <> p2 ->
  (forall i x, (i <= L)%nat -> (x < n)%nat -> V (p2, i, x) = md_out (nth i Q 0) (m0 (p1, i, x)) (m0 (pool, i, x)) (nth i md 0)) ->
  wr m0 (divProg n Q P L lvl p1 pool p2) (fun l => within p1 L n l \/ within pool L n l) (within p2 L n) V.
Proof.
  intros MD NE H.
  assert (K : wr m0 (divProg n Q P L lvl p1 pool p2)
     (fun l => exists ix, In ix (list_prod (seq 0 (S L)) (seq 0 n)) /\ (l = (p1, fst ix, snd ix) \/ l = (pool, fst ix, snd ix)))
     (fun l => exists ix, In ix (list_prod (seq 0 (S L)) (seq 0 n)) /\ l = (p2, fst ix, snd ix)) V).
  { apply (wr_flat m0 (divStep Q P lvl p1 pool p2) (fun ix l => l = (p1, fst ix, snd ix) \/ l = (pool, fst ix, snd ix)) (fun ix l => l = (p2, fst ix, snd ix))).
    - apply nodup_prod; apply seq_NoDup.
    - intros [i x] Hix. apply in_prod_iff in Hix. destruct Hix as [Hi Hx]. apply in_seq in Hi, Hx. intros r m AG. unfold divStep. cbn [fst snd prun]. rewrite MD. cbn [rbind].
      eexists _, _. split; [reflexivity|]. split.
      + intros l ->. rewrite mupd_eq. rewrite H by lia. rewrite <- (AG (p1, i, x)) by (left; reflexivity). rewrite <- (AG (pool, i, x)) by (right; reflexivity). reflexivity.
      + intros l NL. apply mupd_neq. congruence.
    - intros [i x] [i' x'] l _ _ NAB [->| ->] E; cbn in E; congruence.
    - intros ix l. apply loc_dec. }
  intros r m AG. destruct (K r m) as (r' & m' & E & A & B).
  { intros l (ix & Hix & Hl). destruct ix as [i x]. apply in_prod_iff in Hix. destruct Hix as [Hi Hx]. apply in_seq in Hi, Hx. apply AG. destruct Hl as [->| ->]; [left|right]; cbn; lia. }
  exists r', m'. split; [exact E|]. split.
  - intros [[p i] x] (-> & Hi & Hx). apply A. exists (i, x). split; [apply in_prod; apply in_seq; lia|reflexivity].
  - intros l NL. apply B. intros ([i x] & Hix & ->). apply in_prod_iff in Hix. destruct Hix as [Hi Hx]. apply in_seq in Hi, Hx. apply NL. cbn. lia.
Qed.

(** ** footprints *)
Lemma up_rds n Q P lQ lP src dst l : (n mod 8 = 0)%nat -> rds (upProg n Q P lQ lP src dst) l -> within src lQ n l.
Proof.
  intros N8 (i & k & H). pose proof (Nat.div_mod n 8 ltac:(lia)) as DM. rewrite N8, Nat.add_0_r in DM. apply in_flat_map in H. destruct H as (b & Hb & H). apply in_seq in Hb.
  apply in_app_or in H. destruct H as [H|H]; apply in_map_iff in H; destruct H as ([a c] & E & H); [|discriminate]. apply in_prod_iff in H. destruct H as [Ha Hc]. apply in_seq in Ha, Hc.
  cbn in E. injection E as _ _ <-. cbn. lia.
Qed.
Lemma up_wrs n Q P lQ lP src dst l : (n mod 8 = 0)%nat -> wrs (upProg n Q P lQ lP src dst) l -> within dst lP n l.
Proof.
  intros N8 (f & H). pose proof (Nat.div_mod n 8 ltac:(lia)) as DM. rewrite N8, Nat.add_0_r in DM. apply in_flat_map in H. destruct H as (b & Hb & H). apply in_seq in Hb.
  apply in_app_or in H. destruct H as [H|H]; apply in_map_iff in H; destruct H as ([a c] & E & H); [discriminate|]. apply in_prod_iff in H. destruct H as [Ha Hc]. apply in_seq in Ha, Hc.
  cbn in E. injection E as <- _. cbn. lia.
Qed.
Lemma div_rds n Q P L lvl p1 pool p2 l : rds (divProg n Q P L lvl p1 pool p2) l -> within p1 L n l \/ within pool L n l.
Proof.
  intros (i & k & H). apply in_flat_map in H. destruct H as ([a c] & H' & H). apply in_prod_iff in H'. destruct H' as [Ha Hc]. apply in_seq in Ha, Hc.
  cbn in H. destruct H as [H|[H|[H|[]]]]; [injection H as _ _ <-; right; cbn; lia|injection H as _ _ <-; left; cbn; lia|discriminate].
Qed.
Lemma div_wrs n Q P L lvl p1 pool p2 l : wrs (divProg n Q P L lvl p1 pool p2) l -> within p2 L n l.
Proof.
  intros (f & H). apply in_flat_map in H. destruct H as ([a c] & H' & H). apply in_prod_iff in H'. destruct H' as [Ha Hc]. apply in_seq in Ha, Hc.
  cbn in H. destruct H as [H|[H|[H|[]]]]; [discriminate|discriminate|injection H as <- _; cbn; lia].
Qed.
Lemma rds_app p q l : rds (p ++ q) l -> rds p l \/ rds q l.
Proof. intros (i & k & H). apply in_app_or in H. destruct H; [left|right]; exists i, k; assumption. Qed.
Lemma wrs_app p q l : wrs (p ++ q) l -> wrs p l \/ wrs q l.
Proof. intros (f & H). apply in_app_or in H. destruct H; [left|right]; exists f; assumption. Qed.

(** ** histories *)
Definition allocated (w : world) : Prop :=
  (forall p, In p (polys w) -> (p < fresh w)%nat) /\ (forall e x, nth_error (exts w) e = Some (Some x) -> (poolQ x < fresh w)%nat /\ (poolP x < fresh w)%nat /\ poolQ x <> poolP x /\ ~ In (poolQ x) (polys w) /\ ~ In (poolP x) (polys w)) /\
  (forall e e' x x', e <> e' -> nth_error (exts w) e = Some (Some x) -> nth_error (exts w) e' = Some (Some x') ->
     poolQ x <> poolQ x' /\ poolQ x <> poolP x' /\ poolP x <> poolQ x' /\ poolP x <> poolP x').
Lemma nth_error_app1' {A} (l : list A) y e x : nth_error (l ++ [y]) e = Some x -> (nth_error l e = Some x /\ (e < length l)%nat) \/ (e = length l /\ x = y).
Proof.
  intros H. destruct (lt_dec e (length l)) as [L|L]; [rewrite nth_error_app1 in H by assumption; left; split; assumption|].
  rewrite nth_error_app2 in H by lia. destruct (e - length l)%nat as [|k] eqn:E; cbn in H; [|destruct k; discriminate]. injection H as <-. right. split; [lia|reflexivity].
Qed.
Lemma allocated_ext w Q P : allocated w -> allocated (World (fresh w + 2) (exts w ++ [Some (FBE Q P (fresh w) (fresh w + 1))]) (polys w)).
Proof.
  intros (A & B & C). split; [|split]; cbn.
  - intros p Hp. pose proof (A p Hp). lia.
  - intros e x H. apply nth_error_app1' in H. destruct H as [[H _]|[-> E]].
    + destruct (B e x H) as (B1 & B2 & B3 & B4 & B5). repeat split; try lia; assumption.
    + injection E as ->. cbn. repeat split; try lia; intros I; apply A in I; lia.
  - intros e e' x x' NE H H'. apply nth_error_app1' in H, H'. destruct H as [[H L]|[-> E]], H' as [[H' L']|[-> E']].
    + exact (C e e' x x' NE H H').
    + injection E' as ->. destruct (B e x H) as (B1 & B2 & _). cbn. lia.
    + injection E as ->. destruct (B e' x' H') as (B1 & B2 & _). cbn. lia.
    + contradiction.
Qed.
Lemma allocated_nil w : allocated w -> allocated (World (fresh w) (exts w ++ [None]) (polys w)).
Proof.
  intros (A & B & C). split; [exact A|]. split; cbn.
  - intros e x H. apply nth_error_app1' in H. destruct H as [[H _]|[_ E]]; [exact (B e x H)|discriminate].
  - intros e e' x x' NE H H'. apply nth_error_app1' in H, H'. destruct H as [[H _]|[_ E]]; [|discriminate]. destruct H' as [[H' _]|[_ E]]; [|discriminate]. exact (C e e' x x' NE H H').
Qed.
Lemma allocated_step w o : allocated w -> allocated (hstep w o).
Proof.
  intros AL. destruct o as [Q P| |e|]; cbn.
  - apply allocated_ext. assumption.
  - apply allocated_nil. assumption.
  - destruct (nth_error (exts w) e) as [[x|]|]; cbn; [apply allocated_ext; assumption|apply allocated_nil; assumption|assumption].
  - destruct AL as (A & B & C). split; [|split]; cbn.
    + intros p Hp. apply in_app_or in Hp. destruct Hp as [Hp|[<-|[]]]; [pose proof (A p Hp); lia|lia].
    + intros e x H. destruct (B e x H) as (B1 & B2 & B3 & B4 & B5). repeat split; try lia; intros I; apply in_app_or in I; destruct I as [I|[I|[]]]; try contradiction; lia.
    + exact C.
Qed.
Lemma history_allocated h : allocated (history h).
Proof.
  unfold history. assert (K : allocated world0). { split; [intros p []|]. split; [intros e x H; destruct e; discriminate|]. intros e e' x x' _ H. destruct e; discriminate. }
  revert K. generalize world0. induction h as [|o h IH]; intros w K; [exact K|]. cbn. apply IH. apply allocated_step. assumption.
Qed.
