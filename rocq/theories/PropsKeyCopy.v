(** C65: copies of keys are independent; key sets hold references. *)
From Verif Require Import Base ExtShare ExtShareProofs KeyCopy.
Open Scope Z_scope.

(** ** Specification: keys are values *)
(** a key is its kind, its id and its words (component, row, coefficient) *)
Record key := Key { kkind : bool; kname : string; kword : nat -> nat -> nat -> Z }.
Definition ncomps (sk : bool) : nat := if sk then 2 else 4.
Record vheap := VH { vkeys : list (option key); vsets : list (bool * gomap string nat) }.
Definition vkey (v : vheap) (k : nat) : res key := match nth_error (vkeys v) k with Some (Some x) => Ok x | _ => Panic end.
Definition vstep (v : vheap) (o : kop) : res vheap :=
  match o with
  | KNewSecretKey id => Ok (VH (vkeys v ++ [Some (Key true id (fun _ _ _ => 0))]) (vsets v))
  | KNewPublicKey id => Ok (VH (vkeys v ++ [Some (Key false id (fun _ _ _ => 0))]) (vsets v))
  | KNil => Ok (VH (vkeys v ++ [None]) (vsets v))
  | KCopyNew k => match nth_error (vkeys v) k with Some x => Ok (VH (vkeys v ++ [x]) (vsets v)) | None => Panic end
  | KWrite k c i x w => y <- vkey v k ;; if (c <? ncomps (kkind y))%nat
                        then Ok (VH (put (vkeys v) k (Some (Key (kkind y) (kname y) (fun c' i' x' => if ((c =? c') && (i =? i') && (x =? x'))%nat then w else kword y c' i' x')))) (vsets v))
                        else Panic
  | KSetID k id => y <- vkey v k ;; Ok (VH (put (vkeys v) k (Some (Key (kkind y) id (kword y)))) (vsets v))
  | KNewSet sk => Ok (VH (vkeys v) (vsets v ++ [(sk, nil)]))
  | KAdd s k => y <- vkey v k ;; match nth_error (vsets v) s with
                                 | Some (sk, m) => if Bool.eqb sk (kkind y) then Ok (VH (vkeys v) (put (vsets v) s (sk, mset seq_dec m (kname y) k))) else Panic
                                 | None => Panic end
  | KDel s id => match nth_error (vsets v) s with Some (sk, m) => Ok (VH (vkeys v) (put (vsets v) s (sk, mdel seq_dec m id))) | None => Panic end
  end.
Definition vrun (v : vheap) (ops : list kop) : res vheap := rfold vstep ops v.
(** key variable k of the heap holds the value x *)
Definition holds_key (h : kheap) (k : nat) (x : option key) : Prop :=
  match x with
  | None => nth_error (kobjs h) k = Some None
  | Some y => exists o, nth_error (kobjs h) k = Some (Some o) /\ is_sk o = kkind y /\ kobj_id o = kname y /\ length (comps o) = ncomps (kkind y) /\
      forall c i x p, nth_error (comps o) c = Some p -> kmem h (p, i, x) = kword y c i x
  end.

(** ** Invariant *)
Definition ocomps (o : option kobj) : list nat := match o with Some x => comps x | None => nil end.
Definition sep (h : kheap) : Prop := NoDup (flat_map ocomps (kobjs h)) /\ forall p, In p (flat_map ocomps (kobjs h)) -> (p < kfresh h)%nat.
Definition rel (h : kheap) (v : vheap) : Prop :=
  sep h /\ length (kobjs h) = length (vkeys v) /\ ksets h = vsets v /\ forall k x, nth_error (vkeys v) k = Some x -> holds_key h k x.

Lemma put_len {A} (l : list A) i x : length (put l i x) = length l.
Proof. revert i. induction l as [|y l IH]; intros [|i]; cbn; try reflexivity. rewrite IH. reflexivity. Qed.
Lemma put_eq {A} (l : list A) i x : (i < length l)%nat -> nth_error (put l i x) i = Some x.
Proof. revert i. induction l as [|y l IH]; intros [|i] H; cbn in *; try lia; [reflexivity|]. apply IH. lia. Qed.
Lemma put_neq {A} (l : list A) i j x : i <> j -> nth_error (put l i x) j = nth_error l j.
Proof. revert i j. induction l as [|y l IH]; intros [|i] [|j] H; cbn; try reflexivity; try lia. apply IH. lia. Qed.
Lemma put_comps l k o o' : nth_error l k = Some (Some o) -> comps o' = comps o -> flat_map ocomps (put l k (Some o')) = flat_map ocomps l.
Proof. revert k. induction l as [|y l IH]; intros [|k] H E; cbn in *; try discriminate; [injection H as ->; cbn; rewrite E; reflexivity|]. rewrite (IH k) by assumption. reflexivity. Qed.
Lemma nth_snoc_cases {A} (l : list A) y e x : nth_error (l ++ [y]) e = Some x -> (nth_error l e = Some x /\ (e < length l)%nat) \/ (e = length l /\ x = y).
Proof. apply nth_error_app1'. Qed.
Lemma in_comps l k o p : nth_error l k = Some (Some o) -> In p (comps o) -> In p (flat_map ocomps l).
Proof. intros H I. apply in_flat_map. exists (Some o). split; [eapply nth_error_In; exact H|exact I]. Qed.
(** a polynomial belongs to one component of one key *)
Lemma comps_unique l k k' o o' c c' p : NoDup (flat_map ocomps l) -> nth_error l k = Some (Some o) -> nth_error l k' = Some (Some o') ->
  nth_error (comps o) c = Some p -> nth_error (comps o') c' = Some p -> k = k' /\ c = c'.
Proof.
  revert k k'. induction l as [|y l IH]; intros k k' ND H H' C C'; [destruct k; discriminate|]. cbn in ND.
  assert (NA : forall q, In q (ocomps y) -> ~ In q (flat_map ocomps l)).
  { clear - ND. induction (ocomps y) as [|a t IH]; intros q I J; [destruct I|]. cbn in ND. inversion ND as [|? ? NI ND']; subst. destruct I as [->|I]; [apply NI; apply in_or_app; right; assumption|apply (IH ND' q); assumption]. }
  destruct k as [|k], k' as [|k']; cbn in H, H'.
  - injection H as ->. injection H' as ->. split; [reflexivity|]. cbn in ND.
    assert (ND' : NoDup (comps o')). { clear - ND. induction (comps o') as [|a t IH]; [constructor|]. cbn in ND. inversion ND as [|? ? NI ND']; subst. constructor; [intros I; apply NI; apply in_or_app; left; assumption|apply IH; assumption]. }
    apply (proj1 (NoDup_nth_error _) ND'); [apply nth_error_Some; congruence|congruence].
  - exfalso. injection H as ->. apply (NA p); [eapply nth_error_In; exact C|]. eapply in_comps; [exact H'|eapply nth_error_In; exact C'].
  - exfalso. injection H' as ->. apply (NA p); [eapply nth_error_In; exact C'|]. eapply in_comps; [exact H|eapply nth_error_In; exact C].
  - destruct (IH k k') as [-> ->]; try assumption; [|split; reflexivity]. clear - ND. induction (ocomps y) as [|a t IH]; [exact ND|]. cbn in ND. inversion ND; subst. apply IH. assumption.
Qed.
(** new keys: old words below the fresh mark are kept *)
Lemma rel_snoc h v o x m' n : rel h v -> (forall p i c, (p < kfresh h)%nat -> m' (p, i, c) = kmem h (p, i, c)) ->
  (kfresh h <= n)%nat -> NoDup (ocomps o) -> (forall p, In p (ocomps o) -> (kfresh h <= p < n)%nat) ->
  holds_key (KH m' n (kobjs h ++ [o]) (ksets h)) (length (kobjs h)) x -> rel (KH m' n (kobjs h ++ [o]) (ksets h)) (VH (vkeys v ++ [x]) (vsets v)).
Proof.
  intros ((ND & LT) & LL & ES & V) MM LN NO NR HN. split; [|split; [|split]].
  - split; cbn [kobjs kfresh]; rewrite flat_map_app; cbn; rewrite app_nil_r.
    + apply nodup_app_intro; [assumption|assumption|]. intros p I J. apply LT in I. apply NR in J. lia.
    + intros p I. apply in_app_or in I. destruct I as [I|I]; [apply LT in I; lia|apply NR in I; lia].
  - cbn. rewrite !app_length, LL. reflexivity.
  - exact ES.
  - cbn [vkeys]. intros k y H. apply nth_snoc_cases in H. destruct H as [[H L]|[-> ->]]; [|rewrite <- LL; exact HN].
    pose proof (V k y H) as HK. destruct y as [y|]; cbn in *; [|rewrite nth_error_app1 by lia; exact HK].
    destruct HK as (o1 & E & K1 & K2 & K3 & K4). exists o1. rewrite nth_error_app1 by lia. split; [exact E|]. split; [exact K1|]. split; [exact K2|]. split; [exact K3|].
    intros c i a p C. rewrite MM; [apply K4; exact C|]. apply LT. eapply in_comps; [exact E|eapply nth_error_In; exact C].
Qed.
Lemma obj_rel h v k : rel h v -> match obj h k, vkey v k with Ok o, Ok y => nth_error (kobjs h) k = Some (Some o) /\ nth_error (vkeys v) k = Some (Some y) | Panic, Panic => True | _, _ => False end.
Proof.
  intros (_ & LL & _ & V). unfold obj, vkey. destruct (nth_error (vkeys v) k) as [[y|]|] eqn:E.
  - destruct (V k _ E) as (o & EO & _). rewrite EO. auto.
  - pose proof (V k _ E) as HK. cbn in HK. rewrite HK. exact Logic.I.
  - apply nth_error_None in E. assert (N : nth_error (kobjs h) k = None) by (apply nth_error_None; lia). rewrite N. exact Logic.I.
Qed.
Lemma rel_sets h v s : rel h v -> rel (KH (kmem h) (kfresh h) (kobjs h) s) (VH (vkeys v) s).
Proof. intros (A & B & _ & V). split; [exact A|]. split; [exact B|]. split; [reflexivity|exact V]. Qed.
Lemma copyPoly_other m s d p i x : p <> d -> copyPoly m s d (p, i, x) = m (p, i, x).
Proof. intros H. cbn. rewrite (proj2 (Nat.eqb_neq _ _) H). reflexivity. Qed.
Lemma copyPoly_new m s d i x : copyPoly m s d (d, i, x) = m (s, i, x).
Proof. cbn. rewrite Nat.eqb_refl. reflexivity. Qed.
Lemma zeroPoly_other m d p i x : p <> d -> zeroPoly m d (p, i, x) = m (p, i, x).
Proof. intros H. unfold zeroPoly. cbn. rewrite (proj2 (Nat.eqb_neq _ _) H). reflexivity. Qed.
Lemma zeroPoly_new m d i x : zeroPoly m d (d, i, x) = 0.
Proof. unfold zeroPoly. cbn. rewrite Nat.eqb_refl. reflexivity. Qed.
Ltac mm := repeat first [rewrite copyPoly_new | rewrite zeroPoly_new | rewrite copyPoly_other by lia | rewrite zeroPoly_other by lia].
Lemma step_rel_ok h v o : rel h v -> match kstep h o, vstep v o with Ok h', Ok v' => rel h' v' | Panic, Panic => True | _, _ => False end.
Proof.
  intros R. pose proof R as ((ND & LT) & LL & ES & V). destruct o as [id|id| |k|k c i x w|k id|sk|s k|s id]; cbn [kstep vstep].
  - apply rel_snoc; [exact R| |lia| | |].
    + intros p i c Hp. mm. reflexivity.
    + cbn. constructor; [cbn; lia|]. constructor; [cbn; lia|constructor].
    + cbn. lia.
    + cbn -[copyPoly zeroPoly]. exists (SK id (kfresh h) (kfresh h + 1)). rewrite nth_error_app2, Nat.sub_diag by lia. cbn -[copyPoly zeroPoly]. repeat (split; [reflexivity|]).
      intros [|[|c]] i x p C; cbn in C; try (destruct c; discriminate); injection C as <-; mm; reflexivity.
  - apply rel_snoc; [exact R| |lia| | |].
    + intros p i c Hp. mm. reflexivity.
    + cbn. repeat (constructor; [cbn; lia|]). constructor.
    + cbn. lia.
    + cbn -[copyPoly zeroPoly]. exists (PK id (kfresh h) (kfresh h + 1) (kfresh h + 2) (kfresh h + 3)). rewrite nth_error_app2, Nat.sub_diag by lia. cbn -[copyPoly zeroPoly]. repeat (split; [reflexivity|]).
      intros [|[|[|[|c]]]] i x p C; cbn in C; try (destruct c; discriminate); injection C as <-; mm; reflexivity.
  - apply rel_snoc; [exact R|reflexivity|lia|constructor|intros p []|]. cbn. rewrite nth_error_app2, Nat.sub_diag by lia. reflexivity.
  - unfold hCopyKey. destruct (nth_error (vkeys v) k) as [[y|]|] eqn:E.
    + destruct (V k _ E) as (o & EO & K1 & K2 & K3 & K4). rewrite EO.
      assert (LO : forall p, In p (comps o) -> (p < kfresh h)%nat) by (intros p I; apply LT; eapply in_comps; eassumption).
      destruct o as [id q p|id q0 p0 q1 p1]; cbn in LO.
      * pose proof (LO q ltac:(auto)). pose proof (LO p ltac:(auto)). apply rel_snoc; [exact R| |lia| | |].
        -- intros a i c Hp. mm. reflexivity.
        -- cbn. repeat (constructor; [cbn; lia|]). constructor.
        -- cbn. lia.
        -- cbn -[copyPoly zeroPoly]. exists (SK id (kfresh h) (kfresh h + 1)). rewrite nth_error_app2, Nat.sub_diag by lia. split; [reflexivity|]. cbn -[copyPoly zeroPoly] in *. repeat (split; [assumption|]).
           intros [|[|c]] i x a C; cbn in C; try (destruct c; discriminate); injection C as <-; mm; [apply (K4 0%nat)|apply (K4 1%nat)]; reflexivity.
      * pose proof (LO q0 ltac:(auto)). pose proof (LO p0 ltac:(auto)). pose proof (LO q1 ltac:(auto)). pose proof (LO p1 ltac:(auto)). apply rel_snoc; [exact R| |lia| | |].
        -- intros a i c Hp. mm. reflexivity.
        -- cbn. repeat (constructor; [cbn; lia|]). constructor.
        -- cbn. lia.
        -- cbn -[copyPoly zeroPoly]. exists (PK id (kfresh h) (kfresh h + 1) (kfresh h + 2) (kfresh h + 3)). rewrite nth_error_app2, Nat.sub_diag by lia. split; [reflexivity|]. cbn -[copyPoly zeroPoly] in *. repeat (split; [assumption|]).
           intros [|[|[|[|c]]]] i x a C; cbn in C; try (destruct c; discriminate); injection C as <-; mm; [apply (K4 0%nat)|apply (K4 1%nat)|apply (K4 2%nat)|apply (K4 3%nat)]; reflexivity.
    + pose proof (V k _ E) as HK. cbn in HK. rewrite HK. apply rel_snoc; [exact R|reflexivity|lia|constructor|intros p []|]. cbn. rewrite nth_error_app2, Nat.sub_diag by lia. reflexivity.
    + apply nth_error_None in E. assert (N : nth_error (kobjs h) k = None) by (apply nth_error_None; lia). rewrite N. exact Logic.I.
  - pose proof (obj_rel h v k R) as OR. destruct (obj h k) as [o|], (vkey v k) as [y|]; cbn [rbind]; try contradiction; [|exact Logic.I]. destruct OR as [EO EY].
    destruct (V k _ EY) as (o1 & EO1 & K1 & K2 & K3 & K4). rewrite EO in EO1. injection EO1 as <-.
    destruct (nth_error (comps o) c) as [p|] eqn:C.
    + assert (CL : (c < length (comps o))%nat) by (apply nth_error_Some; congruence). rewrite (proj2 (Nat.ltb_lt _ _)) by lia.
      assert (KL : (k < length (vkeys v))%nat) by (apply nth_error_Some; congruence).
      split; [split; assumption|]. split; [cbn; rewrite put_len; assumption|]. split; [exact ES|]. cbn [vkeys]. intros k' y' H'.
      destruct (Nat.eq_dec k k') as [<-|NE].
      * rewrite put_eq in H' by assumption. injection H' as <-. exists o. cbn. split; [exact EO|]. split; [exact K1|]. split; [exact K2|]. split; [exact K3|].
        intros c' i' x' p' C'. destruct (Nat.eq_dec c c') as [<-|NC].
        -- rewrite C in C'. injection C' as <-. unfold mupd, loc_eqb. rewrite !Nat.eqb_refl. cbn. destruct ((i =? i') && (x =? x'))%nat; [reflexivity|apply K4; assumption].
        -- rewrite mupd_neq; [rewrite (proj2 (Nat.eqb_neq _ _) NC); apply K4; assumption|]. intros Z. injection Z as -> _ _.
           destruct (comps_unique _ _ _ _ _ _ _ _ ND EO EO C C') as [_ ?]. contradiction.
      * rewrite put_neq in H' by assumption. pose proof (V k' y' H') as HK. destruct y' as [y'|]; [|exact HK]. destruct HK as (o' & EO' & J1 & J2 & J3 & J4). exists o'. cbn.
        split; [exact EO'|]. split; [exact J1|]. split; [exact J2|]. split; [exact J3|]. intros c' i' x' p' C'. rewrite mupd_neq; [apply J4; assumption|]. intros Z. injection Z as -> _ _.
        destruct (comps_unique _ _ _ _ _ _ _ _ ND EO EO' C C') as [? _]. contradiction.
    + apply nth_error_None in C. rewrite (proj2 (Nat.ltb_ge _ _)) by lia. exact Logic.I.
  - pose proof (obj_rel h v k R) as OR. destruct (obj h k) as [o|], (vkey v k) as [y|]; cbn [rbind]; try contradiction; [|exact Logic.I]. destruct OR as [EO EY].
    destruct (V k _ EY) as (o1 & EO1 & K1 & K2 & K3 & K4). rewrite EO in EO1. injection EO1 as <-.
    assert (CO : comps (set_id o id) = comps o) by (destruct o; reflexivity).
    assert (KL : (k < length (vkeys v))%nat) by (apply nth_error_Some; congruence).
    split; [split; cbn; rewrite (put_comps _ _ _ _ EO CO); assumption|]. split; [cbn; rewrite !put_len; assumption|]. split; [exact ES|]. cbn [vkeys]. intros k' y' H'.
    destruct (Nat.eq_dec k k') as [<-|NE].
    + rewrite put_eq in H' by assumption. injection H' as <-. exists (set_id o id). cbn. rewrite put_eq by lia. split; [reflexivity|]. split; [destruct o; exact K1|]. split; [destruct o; reflexivity|]. rewrite CO. split; [exact K3|exact K4].
    + rewrite put_neq in H' by assumption. pose proof (V k' y' H') as HK. destruct y' as [y'|]; cbn in *; rewrite put_neq by assumption; exact HK.
  - rewrite ES. apply rel_sets. assumption.
  - unfold hAdd. pose proof (obj_rel h v k R) as OR. destruct (obj h k) as [o|], (vkey v k) as [y|]; cbn [rbind]; try contradiction; [|exact Logic.I]. destruct OR as [EO EY].
    destruct (V k _ EY) as (o1 & EO1 & K1 & K2 & _). rewrite EO in EO1. injection EO1 as <-. rewrite ES. destruct (nth_error (vsets v) s) as [[sk m]|]; [|exact Logic.I].
    rewrite K1, K2. destruct (Bool.eqb sk (kkind y)); [|exact Logic.I]. apply rel_sets. assumption.
  - unfold hDel. rewrite ES. destruct (nth_error (vsets v) s) as [[sk m]|]; [|exact Logic.I]. apply rel_sets. assumption.
Qed.
Lemma run_rel_ok ops : forall h v, rel h v -> match krun h ops, vrun v ops with Ok h', Ok v' => rel h' v' | Panic, Panic => True | _, _ => False end.
Proof.
  induction ops as [|o ops IH]; intros h v R; [exact R|]. unfold krun, vrun. cbn. pose proof (step_rel_ok h v o R) as S.
  destruct (kstep h o), (vstep v o); cbn; try contradiction; [apply IH; assumption|exact Logic.I].
Qed.
Lemma rel0 : rel kheap0 (VH nil nil).
Proof. split; [split; [constructor|intros p []]|]. split; [reflexivity|]. split; [reflexivity|]. intros k x H. destruct k; discriminate. Qed.

(** ** C65 *)
(** every history of creating, copying, changing and registering keys ends (or panics) as if keys were values and copies were independent values *)
Theorem C65_keys_are_values : forall ops, match krun kheap0 ops, vrun (VH nil nil) ops with
  | Ok h, Ok v => length (kobjs h) = length (vkeys v) /\ ksets h = vsets v /\ forall k x, nth_error (vkeys v) k = Some x -> holds_key h k x
  | Panic, Panic => True
  | _, _ => False
  end.
Proof.
  intros ops. pose proof (run_rel_ok ops _ _ rel0) as H. destruct (krun kheap0 ops), (vrun (VH nil nil) ops); try contradiction; [|exact Logic.I]. destruct H as (_ & A & B & C). auto.
Qed.
Print Assumptions C65_keys_are_values.

(** operations that change key k (through k) *)
Definition changes (k : nat) (o : kop) : bool := match o with KWrite k' _ _ _ _ => (k =? k')%nat | KSetID k' _ => (k =? k')%nat | _ => false end.
(** what a user sees of key variable k *)
Definition same_key (h : kheap) (k : nat) (h' : kheap) (k' : nat) : Prop := exists x, holds_key h k x /\ holds_key h' k' x.
Lemma vrun_keeps ops : forall v v' k x, nth_error (vkeys v) k = Some x -> existsb (changes k) ops = false -> vrun v ops = Ok v' -> nth_error (vkeys v') k = Some x.
Proof.
  induction ops as [|o ops IH]; intros v v' k x E N H; cbn in *; [injection H as <-; assumption|]. apply Bool.orb_false_iff in N. destruct N as [N1 N2].
  unfold vrun in H. cbn in H. destruct (vstep v o) as [v1|] eqn:S; [|discriminate]. cbn in H. apply (IH v1 v' k x); try assumption.
  assert (KL : (k < length (vkeys v))%nat) by (apply nth_error_Some; congruence).
  assert (SN : forall y, nth_error (vkeys v ++ [y]) k = Some x) by (intros y; rewrite nth_error_app1 by assumption; assumption).
  destruct o as [id|id| |k0|k0 c i y w|k0 id|sk|s k0|s id]; cbn [vstep changes] in S, N1.
  - injection S as <-. apply SN.
  - injection S as <-. apply SN.
  - injection S as <-. apply SN.
  - destruct (nth_error (vkeys v) k0); [|discriminate]. injection S as <-. apply SN.
  - destruct (vkey v k0) as [z|]; [|discriminate]. cbn [rbind] in S. destruct (c <? ncomps (kkind z))%nat; [|discriminate]. injection S as <-. cbn. rewrite put_neq; [assumption|]. apply Nat.eqb_neq in N1. congruence.
  - destruct (vkey v k0) as [z|]; [|discriminate]. cbn in S. injection S as <-. cbn. rewrite put_neq; [assumption|]. apply Nat.eqb_neq in N1. congruence.
  - injection S as <-. assumption.
  - destruct (vkey v k0) as [z|]; [|discriminate]. cbn in S. destruct (nth_error (vsets v) s) as [[sk m]|]; [|discriminate]. destruct (Bool.eqb sk (kkind z)); [|discriminate]. injection S as <-. assumption.
  - destruct (nth_error (vsets v) s) as [[sk m]|]; [|discriminate]. injection S as <-. assumption.
Qed.
(** whatever happened before, a copy is what the original was, and stays so until it is changed itself, whatever happens to the original and to everything else; and the other way round *)
Theorem C65_copy_is_independent : forall ops h k h1 ops2 h2, krun kheap0 ops = Ok h -> (k < length (kobjs h))%nat -> kstep h (KCopyNew k) = Ok h1 -> krun h1 ops2 = Ok h2 ->
  let n := length (kobjs h) in
  (existsb (changes n) ops2 = false -> same_key h k h2 n) /\ (existsb (changes k) ops2 = false -> same_key h k h2 k).
Proof.
  intros ops h k h1 ops2 h2 R L C R2 n. pose proof (run_rel_ok ops _ _ rel0) as H. rewrite R in H. destruct (vrun (VH nil nil) ops) as [v|]; [|contradiction].
  pose proof (step_rel_ok h v (KCopyNew k) H) as S. rewrite C in S. destruct H as (SP & LL & ES & V).
  destruct (nth_error (vkeys v) k) as [x|] eqn:E; [|apply nth_error_None in E; lia]. cbn [vstep] in S. rewrite E in S.
  pose proof (run_rel_ok ops2 _ _ S) as H2. rewrite R2 in H2. destruct (vrun _ ops2) as [v2|] eqn:RV; [|contradiction]. destruct H2 as (_ & _ & _ & V2).
  split; intros N; exists x; (split; [apply V; exact E|]); apply V2; eapply vrun_keeps; try exact RV; try exact N; cbn.
  - unfold n. rewrite LL, nth_error_app2, Nat.sub_diag by lia. reflexivity.
  - rewrite nth_error_app1 by lia. exact E.
Qed.
Print Assumptions C65_copy_is_independent.

(** a key set holds the key itself: after AddSecretKey(sk), GetSecretKey(sk.ID) is the variable sk, so what is written to it later is what the set returns; a set given a copy returns the old words *)
Theorem C65_sets_hold_references : forall ops h s k h1 id, krun kheap0 ops = Ok h -> (exists y, holds_key h k (Some y) /\ kname y = id) -> kstep h (KAdd s k) = Ok h1 ->
  hGet h1 s id = Ok k /\ forall ops2 h2, krun h1 ops2 = Ok h2 -> existsb (fun o => match o with KAdd s' _ => (s =? s')%nat | KDel s' _ => (s =? s')%nat | _ => false end) ops2 = false -> hGet h2 s id = Ok k.
Proof.
  intros ops h s k h1 id R (y & HK & EN) A. cbn in A. unfold hAdd, obj in A. cbn in HK. destruct HK as (o & EO & _ & K2 & _). rewrite EO in A. cbn in A.
  destruct (nth_error (ksets h) s) as [[sk m]|] eqn:ES; [|discriminate]. destruct (Bool.eqb sk (is_sk o)); [|discriminate]. injection A as <-.
  assert (SL : (s < length (ksets h))%nat) by (apply nth_error_Some; congruence).
  assert (G1 : hGet (KH (kmem h) (kfresh h) (kobjs h) (put (ksets h) s (sk, mset seq_dec m (kobj_id o) k))) s id = Ok k).
  { unfold hGet. cbn. rewrite put_eq by assumption. rewrite K2, EN. rewrite mget_mset_eq. reflexivity. }
  split; [exact G1|]. generalize dependent (KH (kmem h) (kfresh h) (kobjs h) (put (ksets h) s (sk, mset seq_dec m (kobj_id o) k))). clear. intros h1 G1 ops2. revert h1 G1.
  induction ops2 as [|o ops2 IH]; intros h1 G1 h2 H N; [injection H as <-; assumption|]. unfold krun in H. cbn in H, N. apply Bool.orb_false_iff in N. destruct N as [N1 N2].
  destruct (kstep h1 o) as [h3|] eqn:S; [|discriminate]. cbn in H. apply (IH h3); try assumption. revert G1. unfold hGet.
  assert (SS : nth_error (ksets h3) s = nth_error (ksets h1) s \/ nth_error (ksets h1) s = None).
  { destruct o as [i|i| |k0|k0 c i y w|k0 i|sk|s0 k0|s0 i]; cbn in S, N1.
    - injection S as <-. left. reflexivity.
    - injection S as <-. left. reflexivity.
    - injection S as <-. left. reflexivity.
    - unfold hCopyKey in S. destruct (nth_error (kobjs h1) k0) as [[[? ? ?|? ? ? ? ?]|]|]; try discriminate; injection S as <-; left; reflexivity.
    - destruct (obj h1 k0) as [z|]; [|discriminate]. cbn in S. destruct (nth_error (comps z) c); [|discriminate]. injection S as <-. left. reflexivity.
    - destruct (obj h1 k0) as [z|]; [|discriminate]. cbn in S. injection S as <-. left. reflexivity.
    - injection S as <-. cbn. destruct (nth_error (ksets h1) s) eqn:Q; [left|right; reflexivity]. rewrite nth_error_app1; [assumption|]. apply nth_error_Some. congruence.
    - unfold hAdd in S. destruct (obj h1 k0) as [z|]; [|discriminate]. cbn in S. destruct (nth_error (ksets h1) s0) as [[sk m]|]; [|discriminate]. destruct (Bool.eqb sk (is_sk z)); [|discriminate].
      injection S as <-. left. cbn. apply put_neq. apply Nat.eqb_neq in N1. congruence.
    - unfold hDel in S. destruct (nth_error (ksets h1) s0) as [[sk m]|]; [|discriminate]. injection S as <-. left. cbn. apply put_neq. apply Nat.eqb_neq in N1. congruence. }
  destruct SS as [-> |Z]; [auto|]. rewrite Z. discriminate.
Qed.
Print Assumptions C65_sets_hold_references.

(** a history with both kinds of keys, a nil key, a copy that is changed and a copy whose original is changed *)
Definition kx_ops : list kop :=
  [KNewSecretKey "user1"; KWrite 0 1 2 3 77; KCopyNew 0; KNil; KCopyNew 2; KNewPublicKey "user1"; KWrite 4 3 0 0 5; KCopyNew 4; KNewSet true; KAdd 0 0; KWrite 0 1 2 3 78; KWrite 5 3 0 0 6; KSetID 1 "user2"; KAdd 0 1].
Example C65_nonvacuous : match krun kheap0 kx_ops with
  | Ok h => map (fun k => match nth_error (kobjs h) k with Some (Some o) => Some (kobj_id o, map (fun p => (kmem h (p, 2, 3), kmem h (p, 0, 0))%nat) (comps o)) | _ => None end) (seq 0 6) =
      [Some ("user1", [(0, 0); (78, 0)]); Some ("user2", [(0, 0); (77, 0)]); None; None; Some ("user1", [(0, 0); (0, 0); (0, 0); (0, 5)]); Some ("user1", [(0, 0); (0, 0); (0, 0); (0, 6)])]%string /\
      hGet h 0 "user1" = Ok 0%nat /\ hGet h 0 "user2" = Ok 1%nat /\ hGet h 0 "user3" = Panic
  | Panic => False end.
Proof. vm_compute. repeat split. Qed.
