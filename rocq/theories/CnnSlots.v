(** What [cnn_prog] computes on slots: the plain network (CnnNet.v) on the packed image and weights. *)
From Flocq Require Import Core BinarySingleNaN.
From Coq Require Import Znumtheory Setoid Morphisms Reals Lra Ring_theory Ring.
From Verif Require Import Base IdSetModel KeySetModel NumTheory Negacyclic Ntt Word BasisExt Rows RlweModel KeyGenModel CtModel KeySwitchModel FloatModel CkksFloat CkksModel Slots PropsSlots CkksSlots CkksCircuit PropsCkksCircuit CkksHoist PropsCnn CnnModel CnnNet.
Open Scope Z_scope.
Add Ring CC_ring_cnn : CC_ring.
Notation c0 := ((0, 0)%R : CC).

(** ** sums *)
Lemma tsum_csum n f : tsum n f = csum n f.
Proof.
  unfold tsum. induction n as [|n IH]; [reflexivity|]. rewrite seq_S, fold_left_app, IH. cbn [fold_left]. rewrite csum_S. reflexivity.
Qed.
Lemma csum_app a b f : csum (a + b) f = cadd (csum a f) (csum b (fun i => f (a + i)%nat)).
Proof.
  induction b as [|b IH]; [rewrite Nat.add_0_r; unfold csum at 3; cbn [ksum]; ring|]. rewrite Nat.add_succ_r, !csum_S, IH. ring.
Qed.
Lemma csum_mul a b f : csum (a * b) f = csum a (fun i => csum b (fun j => f (b * i + j)%nat)).
Proof.
  induction a as [|a IH]; [reflexivity|]. replace (S a * b)%nat with (a * b + b)%nat by lia. rewrite csum_app, IH, csum_S. f_equal. apply csum_ext. intros i _. f_equal. lia.
Qed.
Lemma csum_0 n f : (forall i, (i < n)%nat -> f i = c0) -> csum n f = c0.
Proof. apply (ksum_0 (0%R, 0%R) (1%R, 0%R) cadd cmul csub copp eq eq_equivalence CC_ext CC_ring). Qed.
Lemma csum_single n f k : (k < n)%nat -> (forall i, (i < n)%nat -> i <> k -> f i = c0) -> csum n f = f k.
Proof. apply (ksum_single (0%R, 0%R) (1%R, 0%R) cadd cmul csub copp eq eq_equivalence CC_ext CC_ring). Qed.
Lemma csum_swap n m f : csum n (fun i => csum m (f i)) = csum m (fun j => csum n (fun i => f i j)).
Proof. apply (ksum_swap (0%R, 0%R) (1%R, 0%R) cadd cmul csub copp eq eq_equivalence CC_ext CC_ring). Qed.
Lemma csum_last0 n f : f n = c0 -> csum (S n) f = csum n f.
Proof. intros H. rewrite csum_S, H. ring. Qed.
(** a sum over all residues does not depend on where it starts *)
Lemma csum_rotate8 u f : csum 8 (fun i => f ((i + u) mod 8)%nat) = csum 8 f.
Proof.
  rewrite (csum_ext 8 _ (fun i => f ((i + u mod 8) mod 8)%nat)) by (intros i _; rewrite Nat.add_mod_idemp_r by lia; reflexivity).
  pose proof (Nat.mod_upper_bound u 8 ltac:(lia)) as H. set (v := (u mod 8)%nat) in *. clearbody v. unfold csum. cbn [ksum].
  do 8 (destruct v as [|v]; [cbn; ring|]). lia.
Qed.

(** ** writes *)
Lemma filled_gen (ws : list (nat * CC)) (x : nat) (v0 : CC) : (forall v, In (x, v) ws -> v = v0) -> forall a : CC, (a = v0 \/ exists v, In (x, v) ws) -> fold_left (fun v w => if (fst w =? x)%nat then snd w else v) ws a = v0.
Proof.
  induction ws as [|[y v] ws IH]; intros H a Ha; cbn [fold_left fst snd].
  - destruct Ha as [->|[v []]]. reflexivity.
  - destruct (Nat.eqb_spec y x) as [->|n].
    + apply IH; [intros v' Hv'; apply H; right; exact Hv'|]. left. apply H. left. reflexivity.
    + apply IH; [intros v' Hv'; apply H; right; exact Hv'|]. destruct Ha as [->|[v' [E|Hv']]]; [left; reflexivity|injection E as -> _; contradiction|right; exists v'; exact Hv'].
Qed.
Lemma filled_in ws x v0 : In (x, v0) ws -> (forall v, In (x, v) ws -> v = v0) -> filled ws x = v0.
Proof. intros A B. apply filled_gen; [exact B|]. right. exists v0. exact A. Qed.
Lemma filled_out ws x : (forall v, ~ In (x, v) ws) -> filled ws x = c0.
Proof. intros B. apply filled_gen; [intros v Hv; destruct (B v Hv)|]. left. reflexivity. Qed.
Lemma in_for {A} n (body : nat -> list A) y : In y (for_ n body) <-> exists i, (i < n)%nat /\ In y (body i).
Proof. unfold for_. rewrite in_flat_map. split; intros (i & A1 & A2); exists i; (split; [|exact A2]); [apply in_seq in A1; lia|apply in_seq; lia]. Qed.

(** the arrays at the positions the network reads *)
Section Arrays.
  Variables (w : network) (image : nat -> nat -> CC).
  Notation pos i j k := (196 * i + 14 * j + k)%nat.
  Lemma image_writes x v : In (x, v) (imageWrites image) <->
    exists k i j b c, (k < 5 /\ i < 14 /\ j < 14 /\ b < 2 /\ c < 2 /\ x = pos k i j + 1024 * (2 * b + c))%nat /\ v = image (2 * i + b)%nat (2 * j + c)%nat.
  Proof.
    unfold imageWrites. rewrite in_for. split.
    - intros (k & Hk & H). apply in_for in H. destruct H as (i & Hi & H). apply in_for in H. destruct H as (j & Hj & H). exists k, i, j.
      destruct H as [H|[H|[H|[H|[]]]]]; injection H as <- <-; [exists 0%nat, 0%nat|exists 0%nat, 1%nat|exists 1%nat, 0%nat|exists 1%nat, 1%nat]; (split; [lia|f_equal; lia]).
    - intros (k & i & j & b & c & (Hk & Hi & Hj & Hb & Hc & E) & ->). exists k. split; [exact Hk|]. apply in_for. exists i. split; [exact Hi|]. apply in_for. exists j. split; [exact Hj|].
      cbn [In]. destruct b as [|[|b]]; [| |lia]; (destruct c as [|[|c]]; [| |lia]); [left|right; left|right; right; left|right; right; right; left]; (f_equal; first [lia|f_equal; lia]).
  Qed.
  Lemma kernel_writes n x v : In (x, v) (kernelWrites w n) <->
    exists i j k b c, (i < 5 /\ j < 13 /\ k < 13 /\ b < 2 /\ c < 2 /\ x = pos i j k + 1024 * (2 * b + c))%nat /\ v = kernels w i (2 * (n / 2) + b)%nat (2 * (n mod 2) + c)%nat.
  Proof.
    unfold kernelWrites. cbv zeta. generalize (n / 2)%nat (n mod 2)%nat. intros p q. rewrite in_for. split.
    - intros (k & Hk & H). apply in_for in H. destruct H as (i & Hi & H). apply in_for in H. destruct H as (j & Hj & H). exists k, i, j.
      destruct H as [H|[H|[H|[H|[]]]]]; injection H as <- <-; [exists 0%nat, 0%nat|exists 0%nat, 1%nat|exists 1%nat, 0%nat|exists 1%nat, 1%nat]; (split; [lia|f_equal; lia]).
    - intros (k & i & j & b & c & (Hk & Hi & Hj & Hb & Hc & E) & ->). exists k. split; [exact Hk|]. apply in_for. exists i. split; [exact Hi|]. apply in_for. exists j. split; [exact Hj|].
      cbn [In]. destruct b as [|[|b]]; [| |lia]; (destruct c as [|[|c]]; [| |lia]); [left|right; left|right; right; left|right; right; right; left]; (f_equal; first [lia|f_equal; lia]).
  Qed.
  Lemma image_at k i j b c : (k < 5 -> i < 14 -> j < 14 -> b < 2 -> c < 2 -> filled (imageWrites image) (pos k i j + 1024 * (2 * b + c)) = image (2 * i + b) (2 * j + c))%nat.
  Proof.
    intros Hk Hi Hj Hb Hc. apply filled_in.
    - apply image_writes. exists k, i, j, b, c. repeat split; assumption.
    - intros v H. apply image_writes in H. destruct H as (k' & i' & j' & b' & c' & H & ->). assert (k' = k /\ i' = i /\ j' = j /\ b' = b /\ c' = c) as (-> & -> & -> & -> & ->) by lia. reflexivity.
  Qed.
  Lemma kernel_at n i j k b c : (i < 5 -> j < 13 -> k < 13 -> b < 2 -> c < 2 -> filled (kernelWrites w n) (pos i j k + 1024 * (2 * b + c)) = kernels w i (2 * (n / 2) + b) (2 * (n mod 2) + c))%nat.
  Proof.
    intros Hi Hj Hk Hb Hc. apply filled_in.
    - apply kernel_writes. exists i, j, k, b, c. repeat split; assumption.
    - intros v H. apply kernel_writes in H. destruct H as (i' & j' & k' & b' & c' & H & ->). assert (k' = k /\ i' = i /\ j' = j /\ b' = b /\ c' = c) as (-> & -> & -> & -> & ->) by lia. reflexivity.
  Qed.
  Lemma fc1_writes l x v : In (x, v) (for_ 5 (fun i => for_ 13 (fun j => for_ 13 (fun k => [(14 * 14 * i + 14 * j + k, FC1 w (i + 5 * (j * 13 + k)) l)]%nat)))) <->
    exists i j k, (i < 5 /\ j < 13 /\ k < 13 /\ x = pos i j k)%nat /\ v = FC1 w (i + 5 * (j * 13 + k))%nat l.
  Proof.
    rewrite in_for. split.
    - intros (i & Hi & H). apply in_for in H. destruct H as (j & Hj & H). apply in_for in H. destruct H as (k & Hk & H). exists i, j, k. destruct H as [H|[]]. injection H as <- <-. split; [lia|reflexivity].
    - intros (i & j & k & (Hi & Hj & Hk & E) & ->). exists i. split; [exact Hi|]. apply in_for. exists j. split; [exact Hj|]. apply in_for. exists k. split; [exact Hk|]. left. f_equal. lia.
  Qed.
  Lemma fc1_at l i j k : (i < 5 -> j < 13 -> k < 13 -> tempFC1 w l (pos i j k) = FC1 w (i + 5 * (j * 13 + k)) l)%nat.
  Proof.
    intros Hi Hj Hk. apply filled_in.
    - apply fc1_writes. exists i, j, k. repeat split; assumption.
    - intros v H. apply fc1_writes in H. destruct H as (i' & j' & k' & H & ->). assert (k' = k /\ i' = i /\ j' = j) as (-> & -> & ->) by lia. reflexivity.
  Qed.
  Lemma fc1_out l x : (forall i j k, (i < 5 -> j < 13 -> k < 13 -> x <> pos i j k)%nat) -> tempFC1 w l x = c0.
  Proof. intros H. apply filled_out. intros v X. apply fc1_writes in X. destruct X as (i & j & k & (Hi & Hj & Hk & E) & _). apply (H i j k Hi Hj Hk E). Qed.
  Lemma b1_at u : (u < 64)%nat -> encodedB1 w (u * 128) = B1 w u.
  Proof.
    intros H. unfold encodedB1. apply filled_in.
    - apply in_for. exists u. split; [exact H|]. left. reflexivity.
    - intros v X. apply in_for in X. destruct X as (i & Hi & [X|[]]). injection X as X <-. f_equal. lia.
  Qed.
  Lemma b2_at c : (c < 10)%nat -> encodedB2 w c = B2 w c.
  Proof.
    intros H. unfold encodedB2. apply filled_in.
    - apply in_for. exists c. split; [exact H|]. left. reflexivity.
    - intros v X. apply in_for in X. destruct X as (i & Hi & [X|[]]). injection X as X <-. f_equal. lia.
  Qed.
  (** a sum over 1024 positions that meets the entries of one row of tempFC1 *)
  Lemma fc1_sum l (f : nat -> CC) : csum 1024 (fun r => cmul (f r) (tempFC1 w l r)) = csum 5 (fun i => csum 13 (fun j => csum 13 (fun k => cmul (f (pos i j k)) (FC1 w (i + 5 * (j * 13 + k))%nat l)))).
  Proof.
    change 1024%nat with (5 * 196 + 44)%nat. rewrite csum_app, (csum_0 44); [|intros i Hi; rewrite fc1_out; [ring|intros; lia]]. rewrite csum_mul.
    rewrite (csum_ext 5 _ (fun i => csum 13 (fun j => csum 13 (fun k => cmul (f (pos i j k)) (FC1 w (i + 5 * (j * 13 + k))%nat l))))); [ring|].
    intros i Hi. change 196%nat with (14 * 14)%nat at 1. rewrite csum_mul. rewrite csum_last0.
    - apply csum_ext. intros j Hj. rewrite csum_last0.
      + apply csum_ext. intros k Hk. replace (196 * i + (14 * j + k))%nat with (pos i j k) by lia. rewrite fc1_at by assumption. reflexivity.
      + rewrite fc1_out; [ring|]. intros; lia.
    - apply csum_0. intros k Hk. rewrite fc1_out; [ring|]. intros; lia.
  Qed.
End Arrays.
