(** Model of mkbfv MulRelinNew calls (mkbfv/evaluator.go:84-88, 118-150) that run concurrently on different Evaluators.
    Every Evaluator has its own KeySwitcher and FastBasisExtender (evaluator.go:16-23). The buffers PolyRPool1, PolyRPool2, HoistPool1[k], HoistPool2[k]
    belong to a RelinearizationKeySet (keys.go:12-22): calls on the same key set use the same buffers.
    A call makes five steps: lift op0 into PolyRPool1 (125-128), lift op1 into PolyRPool2 (130-133), decompose the components of op0 (138-140), those of op1 (142-144),
    multiply (146-149). ct0R and ct1R are maps of pointers to the pool entries (126, 131), so every step reads what the pools contain when it runs.
    Simplification: a step is atomic. A schedule of these steps is also one of the finer interleavings of a real run, so what goes wrong here goes wrong there; the claims that nothing
    goes wrong are about schedules in which no other call touches the key set between the steps of a call, where the granularity does not matter. *)
From Flocq Require Import Core BinarySingleNaN.
From Verif Require Import Base IdSetModel KeySetModel NumTheory Negacyclic Ntt Word FloatModel CkksFloat BasisExt BasisExtProofs Rows RlweModel KeyGenModel Galois CtModel KeySwitchModel CkksModel BfvModel BfvMulModel KsPool EvalPool BfvPool ShareModel.
Open Scope Z_scope.

Section Model.
  Context {N : nat}.
  Notation R := (R N).
  Notation ct := (ctT N).
  Implicit Types (b : bparams).
  (** keys.go:12-22: the keys and the buffers of a RelinearizationKeySet *)
  Record bkeyset := KSet { ksK : brlkset N; ksR1 : gomap string (list R); ksR2 : gomap string (list R); ksH0 : bhoisted N; ksH1 : bhoisted N }.
  (** one call MulRelinNew(op0, op1, rlkSet) on its own Evaluator: which key set it uses, its operands, the iteration orders of its map loops, the buffers of the Evaluator,
      the step it makes next (5: it has ended), the ciphertext it allocated, its outcome *)
  Record bthread := BTh { btS : nat; bt0 : ct; bt1 : ct; btO : order; btE : bst N; btP : nat; btN : ct; btR : option (res ct) }.
  Definition bbegin (k : nat) (o : order) (s : bst N) (c0 c1 : ct) : bthread := BTh k c0 c1 o s 0 nil None.
  (** the pool entries ct0R points to (evaluator.go:126) *)
  Definition fetch (pool : gomap string (list R)) (l : list string) : res ct :=
    rfold (fun (acc : ct) id => r <- match mget seq_dec pool id with Some x => Ok x | None => Panic end ;; Ok (cset acc id (Pol r false))) l nil.
  (** one step on the Evaluator's buffers and the key set: the new buffers, the new key set, the allocated ciphertext, the result after the last step *)
  Definition bstep b (crs : crsT N) (o : order) (c0 c1 : ct) (ph : nat) (s : bst N) (out : ct) (k : bkeyset) : res (bst N * bkeyset * ct * option ct) :=
    let l0 := o 40%nat (keys c0) in let l1 := o 41%nat (keys c1) in
    match ph with
    | 0%nat => out <- bNewBinary (ppQ b) o c0 c1 ;;
               '(s, R1, _) <- liftSt (ModUpQtoRSt b) l0 c0 s (ksR1 k) ;; Ok (s, KSet (ksK k) R1 (ksR2 k) (ksH0 k) (ksH1 k), out, None)
    | 1%nat => '(s, R2, _) <- liftSt (RescaleSt b) l1 c1 s (ksR2 k) ;; Ok (s, KSet (ksK k) (ksR1 k) R2 (ksH0 k) (ksH1 k), out, None)
    | 2%nat => c0R <- fetch (ksR1 k) l0 ;;
               ids0 <- IDSetOf (o 42%nat) c0 ;; l <- ctLevel c0 ;;
               '(s, H0) <- bhoistSt b l (o 44%nat (keys ids0)) c0R s (ksH0 k) ;; Ok (s, KSet (ksK k) (ksR1 k) (ksR2 k) H0 (ksH1 k), out, None)
    | 3%nat => c1R <- fetch (ksR2 k) l1 ;;
               ids1 <- IDSetOf (o 43%nat) c1 ;; l <- ctLevel c1 ;;
               '(s, H1) <- bhoistSt b l (o 45%nat (keys ids1)) c1R s (ksH1 k) ;; Ok (s, KSet (ksK k) (ksR1 k) (ksR2 k) (ksH0 k) H1, out, None)
    | _ => c0R <- fetch (ksR1 k) l0 ;; c1R <- fetch (ksR2 k) l1 ;;
           '(s, c) <- bMulSt true b o crs s c0R c1R (Some (ksH0 k)) (Some (ksH1 k)) (ksK k) out ;; Ok (s, k, out, Some c)
    end.
  (** the next step of a call; a panic ends it *)
  Definition bexec b (crs : crsT N) (t : bthread) (k : bkeyset) : bthread * bkeyset :=
    if (5 <=? btP t)%nat then (t, k) else
    match bstep b crs (btO t) (bt0 t) (bt1 t) (btP t) (btE t) (btN t) k with
    | Ok (s, k, out, None) => (BTh (btS t) (bt0 t) (bt1 t) (btO t) s (S (btP t)) out None, k)
    | Ok (s, k, out, Some c) => (BTh (btS t) (bt0 t) (bt1 t) (btO t) s 5 out (Some (Ok c)), k)
    | Panic => (BTh (btS t) (bt0 t) (bt1 t) (btO t) (btE t) 5 (btN t) (Some Panic), k)
    end.
  (** the schedule: which call makes the next step *)
  Fixpoint bschedule b (crs : crsT N) (sch : list nat) (ts : list bthread) (ks : list bkeyset) : list bthread * list bkeyset :=
    match sch with
    | nil => (ts, ks)
    | i :: sch => match nth_error ts i with
                  | Some t => match nth_error ks (btS t) with
                              | Some k => let '(t', k') := bexec b crs t k in bschedule b crs sch (set_nth i t' ts) (set_nth (btS t) k' ks)
                              | None => bschedule b crs sch ts ks
                              end
                  | None => bschedule b crs sch ts ks
                  end
    end.
End Model.
Arguments bkeyset : clear implicits.
Arguments bthread : clear implicits.
