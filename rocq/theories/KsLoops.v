(** Loops over the components of a ciphertext, and small tools for sums over the parties. *)
From Verif Require Import Base IdSetModel NumTheory Negacyclic Ntt Word BasisExt BasisExtProofs Rows RlweModel KeyGenModel SchemeSpec ExtProd ExtProps Galois KeyGenProofs CtModel CtSpec CtProofs EncDecProofs KeySwitchModel Digits.
From Coq Require Import Znumtheory Setoid Morphisms.
Open Scope Z_scope.

(** a choice function on a finite list of identities *)
Lemma list_choice {B} (l : list string) (P : string -> B -> Prop) (d : B) : (forall x, In x l -> exists y, P x y) -> exists f : string -> B, forall x, In x l -> P x (f x).
Proof.
  induction l as [|x l IH]; intros H; [exists (fun _ => d); intros ? []|].
  destruct IH as [f Hf]; [intros; apply H; right; assumption|]. destruct (H x (or_introl eq_refl)) as [y Hy].
  exists (fun z => if string_dec z x then y else f z). intros z Hz. destruct (string_dec z x) as [->|n]; [exact Hy|].
  apply Hf. destruct Hz; [congruence|assumption].
Qed.

Section Loops.
  Context {N : nat} (pp : rparams) (WF : wfp N pp).
  Notation R := (R N). Notation ct := (ctT N).
  Add Ring R_ring9 : (@R_ring_theory N).

  Lemma keys_upd (c : ct) id p : In id (keys c) -> forall x, In x (keys (cset c id p)) <-> In x (keys c).
  Proof. intros I x. rewrite keys_cset. split; [intros [->|]; assumption|tauto]. Qed.
  Lemma cwr_ok (c : ct) id rows : In id (keys c) -> cwr c id rows = Ok (cset c id (Pol rows (pntt (comp c id)))).
  Proof. intros I. unfold cwr. rewrite (cget_comp _ _ I). reflexivity. Qed.

  (** every iteration rewrites only the component of its own identity *)
  Lemma loop1 (f : ct -> string -> res ct) (G : string -> poly N -> poly N) : forall l c0, NoDup l -> mwf c0 -> incl l (keys c0) ->
    (forall c id, In id l -> mwf c -> (forall x, In x (keys c) <-> In x (keys c0)) -> comp c id = comp c0 id -> f c id = Ok (cset c id (G id (comp c0 id)))) ->
    exists c', rfold f l c0 = Ok c' /\ mwf c' /\ (forall x, In x (keys c') <-> In x (keys c0)) /\
      forall x, comp c' x = if in_dec string_dec x l then G x (comp c0 x) else comp c0 x.
  Proof.
    assert (X : forall l c0 c, NoDup l -> mwf c -> (forall x, In x (keys c) <-> In x (keys c0)) -> incl l (keys c0) -> (forall x, In x l -> comp c x = comp c0 x) ->
      (forall c id, In id l -> mwf c -> (forall x, In x (keys c) <-> In x (keys c0)) -> comp c id = comp c0 id -> f c id = Ok (cset c id (G id (comp c0 id)))) ->
      exists c', rfold f l c = Ok c' /\ mwf c' /\ (forall x, In x (keys c') <-> In x (keys c0)) /\
        forall x, comp c' x = if in_dec string_dec x l then G x (comp c0 x) else comp c x).
    { induction l as [|y l IH]; intros c0 c ND W K I E H.
      - exists c. split; [reflexivity|]. split; [assumption|]. split; [assumption|]. reflexivity.
      - inversion ND as [|? ? NI ND']; subst. cbn [rfold]. rewrite (H c y) by (trivial; try (left; reflexivity); apply E; left; reflexivity). cbn [rbind].
        destruct (IH c0 (cset c y (G y (comp c0 y)))) as (c' & A1 & A2 & A3 & A4); trivial.
        + apply mwf_mset. assumption.
        + intros x. rewrite keys_upd; [apply K|]. apply K. apply I. left. reflexivity.
        + intros x Hx. apply I. right. assumption.
        + intros x Hx. rewrite comp_neq by congruence. apply E. right. assumption.
        + intros d id Hd. apply H. right. assumption.
        + exists c'. split; [exact A1|]. split; [exact A2|]. split; [exact A3|]. intros x. rewrite A4.
          destruct (in_dec string_dec x l) as [J|J]; destruct (in_dec string_dec x (y :: l)) as [J'|J']; trivial.
          * exfalso. apply J'. right. assumption.
          * destruct J' as [->|J']; [apply comp_eq|contradiction].
          * apply comp_neq. intros ->. apply J'. left. reflexivity. }
    intros l c0 ND W I H. apply (X l c0 c0); trivial. intros; reflexivity.
  Qed.

  (** every iteration adds to the constant component and rewrites its own *)
  Lemma loop2 (f : ct -> string -> res ct) (G0 G1 : string -> poly N -> poly N) : forall l c0, NoDup l -> mwf c0 -> incl l (keys c0) -> In id0 (keys c0) -> ~ In id0 l ->
    (forall c id, In id l -> mwf c -> (forall x, In x (keys c) <-> In x (keys c0)) -> comp c id = comp c0 id ->
       f c id = Ok (cset (cset c id0 (G0 id (comp c id0))) id (G1 id (comp c0 id)))) ->
    exists c', rfold f l c0 = Ok c' /\ mwf c' /\ (forall x, In x (keys c') <-> In x (keys c0)) /\
      comp c' id0 = fold_left (fun p id => G0 id p) l (comp c0 id0) /\
      forall x, x <> id0 -> comp c' x = if in_dec string_dec x l then G1 x (comp c0 x) else comp c0 x.
  Proof.
    assert (X : forall l c0 c, NoDup l -> mwf c -> (forall x, In x (keys c) <-> In x (keys c0)) -> incl l (keys c0) -> In id0 (keys c0) -> ~ In id0 l ->
      (forall x, In x l -> comp c x = comp c0 x) ->
      (forall c id, In id l -> mwf c -> (forall x, In x (keys c) <-> In x (keys c0)) -> comp c id = comp c0 id ->
         f c id = Ok (cset (cset c id0 (G0 id (comp c id0))) id (G1 id (comp c0 id)))) ->
      exists c', rfold f l c = Ok c' /\ mwf c' /\ (forall x, In x (keys c') <-> In x (keys c0)) /\
        comp c' id0 = fold_left (fun p id => G0 id p) l (comp c id0) /\
        forall x, x <> id0 -> comp c' x = if in_dec string_dec x l then G1 x (comp c0 x) else comp c x).
    { induction l as [|y l IH]; intros c0 c ND W K I I0 N0 E H.
      - exists c. split; [reflexivity|]. split; [assumption|]. split; [assumption|]. split; reflexivity.
      - inversion ND as [|? ? NI ND']; subst. cbn [rfold]. rewrite (H c y) by (trivial; try (left; reflexivity); apply E; left; reflexivity). cbn [rbind].
        assert (Ny : y <> id0) by (intros ->; apply N0; left; reflexivity).
        destruct (IH c0 (cset (cset c id0 (G0 y (comp c id0))) y (G1 y (comp c0 y)))) as (c' & A1 & A2 & A3 & A4 & A5); trivial.
        + apply mwf_mset. apply mwf_mset. assumption.
        + intros x. rewrite keys_upd, keys_upd; [apply K| |]; [apply K; assumption|]. apply keys_cset. right. apply K. apply I. left. reflexivity.
        + intros x Hx. apply I. right. assumption.
        + intros J. apply N0. right. assumption.
        + intros x Hx. rewrite !comp_neq; [apply E; right; assumption| |congruence]. intros ->. apply N0. right. assumption.
        + intros d id Hd. apply H. right. assumption.
        + exists c'. split; [exact A1|]. split; [exact A2|]. split; [exact A3|]. split.
          * rewrite A4, comp_neq, comp_eq by congruence. reflexivity.
          * intros x Nx. rewrite A5 by assumption.
            destruct (in_dec string_dec x l) as [J|J]; destruct (in_dec string_dec x (y :: l)) as [J'|J']; trivial.
            -- exfalso. apply J'. right. assumption.
            -- destruct J' as [->|J']; [apply comp_eq|contradiction].
            -- rewrite comp_neq by (intros ->; apply J'; left; reflexivity). apply comp_neq. assumption. }
    intros l c0 ND W I I0 N0 H. apply (X l c0 c0); trivial. intros; reflexivity.
  Qed.

  (** accumulating rows into a component *)
  Lemma fold_add_rows level fl (g : string -> list R) l : forall p, (level < length (Qm pp))%nat -> wfpoly pp level fl p ->
    (forall id, In id l -> forall j, (j <= level)%nat -> inr (Qi pp j) (row (g id) j)) ->
    let p' := fold_left (fun p id => Pol (lvlQ2 pp level r_add (prows p) (g id)) (pntt p)) l p in
    wfpoly pp level fl p' /\ forall j, (j <= level)%nat -> eqm (mq (Qi pp j)) (row (prows p') j) (add (row (prows p) j) (Lsum l (fun id => row (g id) j))).
  Proof.
    intros p HL. revert p. induction l as [|id l IH]; intros p (LP & FP & IP) H.
    - cbn [fold_left Lsum]. split; [split; [assumption|split; assumption]|]. intros j Hj. apply eqm_eq. symmetry. apply add_0_r.
    - cbn [fold_left Lsum]. destruct (IH (Pol (lvlQ2 pp level r_add (prows p) (g id)) (pntt p))) as [A B].
      + rewrite FP. apply wfpoly_tab. intros j Hj. apply r_add_ok; [apply (okQ pp WF j ltac:(lia))|apply IP; assumption|apply H; [left; reflexivity|assumption]].
      + intros; apply H; [right|]; assumption.
      + split; [exact A|]. intros j Hj. rewrite B by assumption. cbn [prows]. rewrite row_lvlQ2 by assumption.
        destruct (r_add_ok (Qi pp j) (row (prows p) j) (row (g id) j)) as [_ E]; [apply (okQ pp WF j ltac:(lia))|apply IP; assumption|apply H; [left; reflexivity|assumption]|].
        transitivity (add (add (row (prows p) j) (row (g id) j)) (Lsum l (fun id => row (g id) j))); [apply eqm_add; [exact E|reflexivity]|]. apply eqm_eq. ring.
  Qed.

  (** the external product of a component only depends on its digits *)
  Lemma ExtOp_hdig level h (op : ct) id (ds key : swk N) : hdig pp level h op id = Ok ds -> ExtOp pp level h op id key = ExternalProductHoisted pp level ds key.
  Proof.
    unfold hdig, ExtOp. destruct h as [m|].
    - intros ->. reflexivity.
    - destruct (cgetL op id level) as [p|]; cbn [rbind]; [|discriminate]. intros E. rewrite ext_is_hoisted, E. reflexivity.
  Qed.

  (** a sum over all parties with zero terms outside a sublist *)
  Lemma Lsum_sub_ind (l m : list string) (f : string -> R) : NoDup l -> NoDup m -> incl m l ->
    Lsum l (fun id => if in_dec string_dec id m then f id else R0) = Lsum m f.
  Proof.
    intros ND NM I. set (b := fun id => if in_dec string_dec id m then true else false).
    assert (P : Permutation (filter b l) m).
    { apply NoDup_Permutation; [apply NoDup_filter; assumption|assumption|]. intros x. unfold b. rewrite filter_In. destruct (in_dec string_dec x m); split; [tauto|intros J; split; [apply I; exact J|reflexivity]|intros [_ ?]; discriminate|contradiction]. }
    rewrite <- (Lsum_perm _ _ _ P). clear P NM. unfold b. clear b I ND. induction l as [|x l IH]; [reflexivity|]. cbn [filter Lsum].
    destruct (in_dec string_dec x m); cbn [Lsum]; rewrite IH; [reflexivity|]. apply add_0_l.
  Qed.
End Loops.
