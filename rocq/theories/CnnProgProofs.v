(** The calls of [Inference] are the program [cnn_prog]. *)
From Flocq Require Import Core BinarySingleNaN.
From Coq Require Import Reals.
From Verif Require Import Base IdSetModel KeySetModel NumTheory Negacyclic Ntt Word BasisExt Rows RlweModel KeyGenModel CtModel KeySwitchModel FloatModel CkksFloat CkksModel CkksCircuit CkksHoist CnnModel CnnNet.
Open Scope Z_scope.

(** the iteration orders of the program's calls, given those of the stages *)
Definition cnn_orders (w : nat -> nat -> nat -> order) : list (nat -> order) :=
  let one (o : order) := fun _ : nat => o in
  map (fun n => one (w 0%nat n 0%nat)) (seq 0 13) ++
  one (w 1%nat 0%nat 7%nat) ::
  flat_map (fun n => [w 1%nat n; one (w 1%nat n 6%nat); one (w 1%nat n 7%nat); one (w 1%nat n 5%nat)]) (seq 1 3) ++
  flat_map (fun n => [w 1%nat n; one (w 1%nat n 5%nat)]) (seq 4 2) ++
  map (fun n => one (w 2%nat n 0%nat)) (seq 0 3) ++
  [one (w 3%nat 0%nat 8%nat); w 3%nat 0%nat; one (w 3%nat 0%nat 6%nat); one (w 3%nat 0%nat 7%nat); one (w 3%nat 0%nat 9%nat)] ++
  flat_map (fun n => [one (w 3%nat n 8%nat); w 3%nat n; one (w 3%nat n 6%nat); one (w 3%nat n 7%nat); one (w 3%nat n 5%nat)]) (seq 1 7) ++
  flat_map (fun n => [w 3%nat n; one (w 3%nat n 5%nat)]) (seq 8 7) ++ [one (w 3%nat 15%nat 5%nat)] ++
  map (fun n => one (w 4%nat n 0%nat)) (seq 0 2) ++
  [one (w 5%nat 0%nat 5%nat)] ++ flat_map (fun n => [w 5%nat n; one (w 5%nat n 5%nat)]) (seq 1 4) ++ [one (w 5%nat 5%nat 7%nat)] ++
  flat_map (fun n => [w 5%nat n; one (w 5%nat n 5%nat)]) (seq 6 6) ++ [one (w 5%nat 12%nat 5%nat)].
Lemma lens : length cnn_prog = length (cnn_orders (fun _ _ _ _ l => l)). Proof. reflexivity. Qed.

Section Equal.
  Context {N : nat} (pp : rparams) (crs : crsT N) (pscale : f64) (rs : rlkset N) (rk : rotset N) (ck : conjset N) (w : nat -> nat -> nat -> order).
  Definition cnn_w : nat -> nat -> order := fun n => nth n (cnn_orders w) (fun _ => w 0%nat 0%nat 0%nat).
  Lemma xrun_cons pts w' n i p (s : @xstate N) : xrun pp pscale crs rs rk ck pts w' n (i :: p) s = (s <- xcall pp pscale crs rs rk ck pts (w' n) s i ;; xrun pp pscale crs rs rk ck pts w' (S n) p s).
  Proof. reflexivity. Qed.
  Lemma xrun_nil pts w' n (s : @xstate N) : xrun pp pscale crs rs rk ck pts w' n nil s = Ok s.
  Proof. reflexivity. Qed.

  Ltac dhead1 e := match e with rbind ?e' _ => dhead1 e' | HoistedForm _ _ _ => destruct e as [?|] | MulRelinHoistedNew _ _ _ _ _ _ _ _ _ => destruct e as [?|] | RotateHoistedNew _ _ _ _ _ _ _ => destruct e as [?|]
    | RotateNew _ _ _ _ _ _ => destruct e as [?|] | MulRelinNew _ _ _ _ _ _ _ _ => destruct e as [?|] | ckCopyNew _ _ => destruct e as [?|] | AddNew _ _ _ _ _ => destruct e as [[? ?]|] | MulPtxtNew _ _ _ _ _ _ _ => destruct e as [[? ?]|] end.
  Ltac xred := cbn [xcall kcall BasisExt.idx CnnModel.idx nth_error rbind app fst snd length].
  Ltac stp W := rewrite xrun_cons, W; cbn [nth]; xred; match goal with |- _ = rbind ?e _ => dhead1 e end; xred; [|reflexivity].

  Theorem inference_prog st img k0 k1 k2 k3 m0 m1 m2 m3 m4 m5 m6 m7 b1 fc2 b2 mask msc :
    Inference pp crs pscale rs rk w st img [k0; k1; k2; k3] [m0; m1; m2; m3; m4; m5; m6; m7] b1 fc2 b2 mask msc =
    ('(st, cs, _) <- xrun pp pscale crs rs rk ck [(mask, msc)] cnn_w 0 cnn_prog (st, [img; k0; k1; k2; k3; m0; m1; m2; m3; m4; m5; m6; m7; b1; fc2; b2], nil) ;; c <- BasisExt.idx cs 101 ;; Ok (st, c)).
  Proof.
    let p := eval vm_compute in cnn_prog in change cnn_prog with p.
    let o := eval cbv in (cnn_orders w) in assert (W : forall n, cnn_w n = nth n o (fun _ => w 0%nat 0%nat 0%nat)) by reflexivity.
    unfold Inference, Convolution, convTerm, FC1Layer, fc1Term, FC2Layer.
    cbn [hoistAll fc1Loop rotAddLoop length Nat.add]. unfold rotAdd, fc1Term.
    cbn [Z.of_nat Pos.of_succ_nat Pos.succ Z.mul Pos.mul Pos.add].
    do 13 (stp W).
    do 86 (stp W).
    rewrite xrun_cons, W; cbn [nth]; xred; change (87 =? 14)%nat with false; match goal with |- _ = rbind ?e _ => dhead1 e end; xred; [|reflexivity].
    do 12 (stp W). rewrite xrun_cons, W; cbn [nth]; xred. destruct (AddNew _ _ _ _ _) as [[? ?]|]; xred; [|reflexivity]. rewrite xrun_nil. reflexivity.
  Qed.
End Equal.
