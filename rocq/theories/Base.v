(** Base: the result type for code that can panic, and Go maps with string keys.

    Modelling conventions used everywhere in this development
    - a Go function that may panic returns [res]; [Panic] stands for every run-time panic
      (explicit panic(..), nil dereference, index out of range);
    - a Go [map[string]T] is an association list with at most one entry per key;
      the iteration order of [range] over a map is unspecified in Go, so every loop over a map takes
      its order from an arbitrary oracle or from an arbitrary permutation of the keys. *)
From Coq Require Export String. From Coq Require Export Arith ZArith Lia Bool Permutation List.
Export ListNotations.
Open Scope list_scope.

Inductive res (A : Type) : Type := Ok (a : A) | Panic.
Arguments Ok {A} _.
Arguments Panic {A}.

Definition rbind {A B} (r : res A) (f : A -> res B) : res B :=
  match r with Ok a => f a | Panic => Panic end.
Notation "x <- r ;; k" := (rbind r (fun x => k)) (at level 61, r at next level, right associativity).
Notation "' p <- r ;; k" := (rbind r (fun x => match x with p => k end))
  (at level 61, p pattern, r at next level, right associativity).

Definition rmap {A B} (f : A -> B) (r : res A) : res B :=
  match r with Ok a => Ok (f a) | Panic => Panic end.

(** A loop whose body may panic. *)
Fixpoint rfold {A B} (f : B -> A -> res B) (l : list A) (b : B) : res B :=
  match l with
  | nil => Ok b
  | x :: xs => b' <- f b x ;; rfold f xs b'
  end.

Lemma rfold_app {A B} (f : B -> A -> res B) l1 l2 b :
  rfold f (l1 ++ l2) b = (b' <- rfold f l1 b ;; rfold f l2 b').
Proof.
  revert b; induction l1 as [|x xs IH]; intros b; cbn; [reflexivity|].
  destruct (f b x); cbn; auto.
Qed.

(** ** Go maps with an arbitrary decidable key type *)
Section GoMap.
  Context {K : Type} (keq : forall a b : K, {a = b} + {a <> b}) {A : Type}.

  Definition gomap := list (K * A).

  Fixpoint mget (m : gomap) (k : K) : option A :=
    match m with
    | nil => None
    | (k', v) :: t => if keq k k' then Some v else mget t k
    end.

  Definition keys (m : gomap) : list K := map fst m.

  Definition mhas (m : gomap) (k : K) : bool :=
    match mget m k with Some _ => true | None => false end.

  (** m[k] = v *)
  Fixpoint mset (m : gomap) (k : K) (v : A) : gomap :=
    match m with
    | nil => [(k, v)]
    | (k', v') :: t => if keq k k' then (k, v) :: t else (k', v') :: mset t k v
    end.

  (** delete(m, k) *)
  Fixpoint mdel (m : gomap) (k : K) : gomap :=
    match m with
    | nil => nil
    | (k', v') :: t => if keq k k' then mdel t k else (k', v') :: mdel t k
    end.

  Definition mwf (m : gomap) : Prop := NoDup (keys m).

  Lemma mget_mset_eq m k v : mget (mset m k v) k = Some v.
  Proof.
    induction m as [|[k' v'] t IH]; cbn; [destruct (keq k k); congruence|].
    destruct (keq k k') as [E|E]; cbn; [destruct (keq k k); congruence|].
    destruct (keq k k'); congruence.
  Qed.

  Lemma mget_mset_neq m k k2 v : k2 <> k -> mget (mset m k v) k2 = mget m k2.
  Proof.
    intros N; induction m as [|[k' v'] t IH]; cbn.
    - destruct (keq k2 k); congruence.
    - destruct (keq k k') as [E|E]; cbn.
      + subst k'. destruct (keq k2 k); congruence.
      + destruct (keq k2 k'); [reflexivity|apply IH].
  Qed.

  Lemma mget_mset m k k2 v : mget (mset m k v) k2 = if keq k2 k then Some v else mget m k2.
  Proof.
    destruct (keq k2 k) as [E|E]; [subst; apply mget_mset_eq|apply mget_mset_neq; assumption].
  Qed.

  Lemma mget_mdel m k k2 : mget (mdel m k) k2 = if keq k2 k then None else mget m k2.
  Proof.
    induction m as [|[k' v'] t IH]; cbn; [destruct (keq k2 k); reflexivity|].
    destruct (keq k k') as [E|E].
    - subst k'. rewrite IH. destruct (keq k2 k); [reflexivity|]. reflexivity.
    - cbn. destruct (keq k2 k') as [E2|E2].
      + subst k'. destruct (keq k2 k); congruence.
      + apply IH.
  Qed.

  Lemma mget_In_keys m k : mget m k <> None <-> In k (keys m).
  Proof.
    induction m as [|[k' v'] t IH]; cbn; [tauto|].
    destruct (keq k k') as [E|E].
    - subst. split; [left; reflexivity|intros _; discriminate].
    - rewrite IH. split; [right; assumption|intros [H|H]; [congruence|assumption]].
  Qed.

  Lemma mhas_In m k : mhas m k = true <-> In k (keys m).
  Proof.
    unfold mhas. rewrite <- mget_In_keys. destruct (mget m k); split; congruence.
  Qed.

  Lemma mget_None m k : mget m k = None <-> ~ In k (keys m).
  Proof.
    rewrite <- mget_In_keys. destruct (mget m k) as [a|]; split; intros H; try congruence.
    exfalso; apply H; discriminate.
  Qed.

  Lemma keys_mset m k v x : In x (keys (mset m k v)) <-> x = k \/ In x (keys m).
  Proof.
    rewrite <- !mget_In_keys, mget_mset. destruct (keq x k); split; intuition congruence.
  Qed.

  Lemma keys_mdel m k x : In x (keys (mdel m k)) <-> x <> k /\ In x (keys m).
  Proof.
    rewrite <- !mget_In_keys, mget_mdel. destruct (keq x k); split; intuition congruence.
  Qed.

  Lemma mwf_mset m k v : mwf m -> mwf (mset m k v).
  Proof.
    unfold mwf. induction m as [|[k' v'] t IH]; cbn; intros H.
    - constructor; [intros []|constructor].
    - inversion H as [|? ? Hn Ht]; subst.
      destruct (keq k k') as [E|E]; cbn.
      + subst. constructor; assumption.
      + constructor; [|apply IH; assumption].
        intros Hin. apply (proj1 (keys_mset t k v k')) in Hin. destruct Hin as [Hin|Hin]; [congruence|contradiction].
  Qed.

  Lemma mwf_mdel m k : mwf m -> mwf (mdel m k).
  Proof.
    unfold mwf. induction m as [|[k' v'] t IH]; cbn; intros H; [constructor|].
    inversion H as [|? ? Hn Ht]; subst.
    destruct (keq k k') as [E|E]; cbn; [apply IH; assumption|].
    constructor; [|apply IH; assumption].
    intros Hin. apply (proj1 (keys_mdel t k k')) in Hin. tauto.
  Qed.

  Lemma mget_app m1 m2 k : mget (m1 ++ m2) k = match mget m1 k with Some v => Some v | None => mget m2 k end.
  Proof.
    induction m1 as [|[k' v'] t IH]; cbn; [reflexivity|].
    destruct (keq k k'); [reflexivity|apply IH].
  Qed.

  Lemma mget_In m k v : mwf m -> In (k, v) m -> mget m k = Some v.
  Proof.
    unfold mwf. induction m as [|[k' v'] t IH]; cbn; intros H Hin; [destruct Hin|].
    inversion H as [|? ? Hn Ht]; subst.
    destruct Hin as [E|Hin].
    - inversion E; subst. destruct (keq k k); congruence.
    - destruct (keq k k') as [E|E]; [|apply IH; assumption].
      subst. exfalso. apply Hn. apply in_map_iff. exists (k', v). auto.
  Qed.

  Lemma In_mget m k v : mget m k = Some v -> In (k, v) m.
  Proof.
    induction m as [|[k' v'] t IH]; cbn; [discriminate|].
    destruct (keq k k'); [intros E; inversion E; subst; left; reflexivity|right; auto].
  Qed.
End GoMap.
Arguments gomap : clear implicits.
Arguments mget {K} keq {A}.
Arguments mset {K} keq {A}.
Arguments mdel {K} keq {A}.
Arguments mhas {K} keq {A}.

(** The reserved identity. *)
Definition id0 : string := "0"%string.
Definition seq_dec := string_dec.

(** Small list facts *)
Lemma NoDup_incl_length_eq {A} (l1 l2 : list A) :
  NoDup l1 -> NoDup l2 -> (forall x, In x l1 <-> In x l2) -> length l1 = length l2.
Proof.
  intros H1 H2 H. apply Nat.le_antisymm; apply NoDup_incl_length; trivial; intros x; apply H.
Qed.

Lemma fold_left_ext {A B} (f g : B -> A -> B) l b :
  (forall b a, In a l -> f b a = g b a) -> fold_left f l b = fold_left g l b.
Proof.
  revert b; induction l as [|x xs IH]; intros b H; cbn; [reflexivity|].
  rewrite H by (left; reflexivity). apply IH. intros; apply H; right; assumption.
Qed.

Lemma NoDup_map_in {A B} (f : A -> B) (l : list A) :
  (forall x y, In x l -> In y l -> f x = f y -> x = y) -> NoDup l -> NoDup (map f l).
Proof.
  induction l as [|a l IH]; intros Hf Hn; cbn; [constructor|].
  inversion Hn as [|? ? Ha Hl]; subst. constructor.
  - intros Hin. apply in_map_iff in Hin. destruct Hin as (y & E & Hy).
    apply Ha. rewrite <- (Hf y a); trivial; [right; assumption|left; reflexivity].
  - apply IH; trivial. intros x y Hx Hy. apply Hf; right; assumption.
Qed.
