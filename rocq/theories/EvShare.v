(** Model of RotateNew, RotateHoistedNew and ConjugateNew calls of mkckks and mkbfv Evaluators that run in several goroutines (mkckks/evaluator.go:485-540, 585-617,
    mkbfv/evaluator.go:154-208, mkrlwe/keyswitch.go:240-332, mkrlwe/keyswitch_hoisted.go:183-247).
    What calls can share: the buffers of the KeySwitcher of their Evaluator (KsPool.v).  Ciphertexts, keys, parameters and the CRS are only read, the output ciphertext is new.
    Simplifications: a step is atomic and is one operation on the KeySwitcher's buffers: one ExternalProduct, one AddLvl from polyQPool[0], one permutation into it, one Copy from it.
    A schedule of these steps is also one of the finer interleavings of a real run.  A panic ends its own goroutine and leaves the buffers as they were before the step. *)
From Flocq Require Import Core BinarySingleNaN.
From Verif Require Import Base IdSetModel KeySetModel NumTheory Negacyclic Ntt Word FloatModel BasisExt Rows RlweModel KeyGenModel Galois CtModel KeySwitchModel CkksModel BfvModel KsPool EvalPool BfvMulModel BfvPool ShareModel.
Open Scope Z_scope.

(** ** Calls cut into steps on a shared state of type T: done, panicked, or one step to make *)
Inductive proc (T A : Type) := Ret (a : A) | Fail | Atom (f : T -> T * proc T A).
Arguments Ret {T A} a. Arguments Fail {T A}. Arguments Atom {T A} f.
Section Proc.
  Context {T : Type}.
  Fixpoint pbind {A B} (p : proc T A) (f : A -> proc T B) : proc T B :=
    match p with Ret a => f a | Fail => Fail | Atom g => Atom (fun s => let '(s', p') := g s in (s', pbind p' f)) end.
  (** what a call does on its own memory *)
  Definition pres {A} (r : res A) : proc T A := match r with Ok a => Ret a | Panic => Fail end.
  (** one step *)
  Definition act {A} (f : T -> res (T * A)) : proc T A := Atom (fun s => match f s with Ok (s', a) => (s', Ret a) | Panic => (s, Fail) end).
  Fixpoint pfold {A B} (f : A -> B -> proc T A) (l : list B) (a : A) : proc T A :=
    match l with nil => Ret a | x :: l => pbind (f a x) (fun a => pfold f l a) end.
  (** goroutines: the number of the object a goroutine uses, and what it has still to do *)
  Definition pexec {A} (p : proc T A) (s : T) : proc T A * T := match p with Atom f => let '(s', p') := f s in (p', s') | _ => (p, s) end.
  Fixpoint psched {A} (sch : list nat) (ts : list (nat * proc T A)) (xs : list T) : list (nat * proc T A) * list T :=
    match sch with
    | nil => (ts, xs)
    | i :: sch => match nth_error ts i with
                  | Some (k, p) => match nth_error xs k with
                                   | Some s => let '(p', s') := pexec p s in psched sch (set_nth i (k, p') ts) (set_nth k s' xs)
                                   | None => psched sch ts xs
                                   end
                  | None => psched sch ts xs
                  end
    end.
End Proc.
Notation "x <~ p ;; q" := (pbind p (fun x => q)) (at level 61, p at next level, right associativity).

Section Model.
  Context {N : nat}.
  Notation R := (R N).
  Notation ct := (ctT N).
  Notation proc := (proc (kst N)).
  Implicit Types (pp : rparams).
  (** keyswitch.go:267-296, the loop that writes polyQPool[0] *)
  Definition permInto pp level (g : Z) (st : kst N) (q : poly N) : kst N := fst (permSt pp level g st q).
  (** keyswitch.go:240-298, keyswitch_hoisted.go:183-247 *)
  Definition RotateP pp (o : order) (crs : crsT N) (h : option (hoisted N)) (ctIn : ct) (rotidx : Z) (rk : rotset N) (out : ct) : proc ct :=
    level <~ pres (ctLevel out) ;;
    ids <~ pres (IDSetOf (o 0%nat) ctIn) ;;
    lin <~ pres (ctLevel ctIn) ;;
    if (lin <? level)%nat then Fail else
    k <~ pres (norm_rot N rotidx) ;;
    p0 <~ pres (cget ctIn id0) ;;
    q0 <~ pres (cget out id0) ;;
    out <~ pfold (fun c id =>
       key <~ pres (rk_get rk id k) ;;
       _ <~ act (fun st => '(st, e) <- ExtOpSt pp level st h ctIn id (rtk_val key) ;; Ok (setq0 st (wrP level e (kq0 st)), tt)) ;;
       q0 <~ pres (cget c id0) ;;
       c <~ act (fun st => c <- cwr c id0 (lvlQ2 pp level r_add (prows q0) (prows (kq0 st))) ;; Ok (st, c)) ;;
       a <~ pres (crs_get crs k) ;;
       ea <~ act (fun st => ExtOpSt pp level st h ctIn id a) ;;
       pres (cwr c id ea)) (o 1%nat (keys ids)) (cset out id0 (polyCopy q0 p0)) ;;
    pfold (fun c id =>
       q <~ pres (cget c id) ;;
       _ <~ act (fun st => Ok (permInto pp level (galEl N k) st q, tt)) ;;
       act (fun st => Ok (st, cset c id (polyCopy q (kq0 st))))) (o 2%nat (keys ctIn)) out.
  (** keyswitch.go:302-332 *)
  Definition ConjugateP pp (o : order) (crs : crsT N) (ctIn : ct) (ck : conjset N) (out : ct) : proc ct :=
    level <~ pres (ctLevel out) ;;
    ids <~ pres (IDSetOf (o 0%nat) ctIn) ;;
    lin <~ pres (ctLevel ctIn) ;;
    if (lin <? level)%nat then Fail else
    out <~ pres (rfold (fun c id =>
       p <- cgetL ctIn id (maxLevel pp) ;;
       _ <- cgetL c id (maxLevel pp) ;;
       cwr c id (permRows pp (maxLevel pp) (conjEl N) (prows p))) (o 1%nat (keys ctIn)) out) ;;
    out <~ pfold (fun c id =>
       key <~ pres (ks_get ck id) ;;
       _ <~ act (fun st => '(st, e) <- ExtOpSt pp level st None c id (cjk_val key) ;; Ok (setq0 st (wrP level e (kq0 st)), tt)) ;;
       q0 <~ pres (cget c id0) ;;
       act (fun st => c <- cwr c id0 (lvlQ2 pp level r_add (prows q0) (prows (kq0 st))) ;; Ok (st, c))) (o 2%nat (keys ids)) out ;;
    pfold (fun c id =>
       a <~ pres (crs_get crs (-2)) ;;
       _ <~ act (fun st => '(st, e) <- ExtOpSt pp level st None c id a ;; Ok (setq0 st (wrP level e (kq0 st)), tt)) ;;
       q <~ pres (cget c id) ;;
       act (fun st => Ok (st, cset c id (polyCopy q (kq0 st))))) (o 3%nat (keys ids)) out.
  (** mkckks/evaluator.go:516-523 *)
  Fixpoint rotChainP pp (o : nat -> order) (crs : crsT N) (fuel : nat) (k rotidx : Z) (rk : rotset N) (tmp out : ct) : proc ct :=
    match fuel with
    | O => if 0 <? rotidx then Fail else Ret out
    | S fuel =>
      if 0 <? rotidx then
        if negb (rotidx mod 2 =? 0)
        then out <~ RotateP pp (o fuel) crs None tmp k rk out ;;
             tmp <~ pres (Copy (o fuel 9%nat) tmp out) ;;
             rotChainP pp o crs fuel (k * 2) (rotidx / 2) rk tmp out
        else rotChainP pp o crs fuel (k * 2) (rotidx / 2) rk tmp out
      else Ret out
    end.
  (** mkckks/evaluator.go:485-489, 493-525 *)
  Definition RotateNewP pp (o : nat -> order) (crs : crsT N) (c : ckct N) (rotidx : Z) (rk : rotset N) : proc (ckct N) :=
    ids <~ pres (IDSetOf (o 0%nat 1%nat) (cv c)) ;;
    level <~ pres (ctLevel (cv c)) ;;
    let out := NewCiphertext (o 0%nat 2%nat) ids level in
    k <~ pres (rotNorm (N := N) rotidx) ;;
    v <~ (if k =? 0 then pres (Copy (o 0%nat 0%nat) out (cv c)) else
          match mget Z.eq_dec crs k with
          | Some _ => RotateP pp (o 0%nat) crs None (cv c) k rk out
          | None => tmp <~ pres (CopyNew (o 0%nat 0%nat) (cv c)) ;; rotChainP pp o crs (Z.to_nat k) 1 k rk tmp out
          end) ;;
    Ret (CK v (csc c)).
  (** mkckks/evaluator.go:585-617 *)
  Definition RotateHoistedNewP pp (o : nat -> order) (crs : crsT N) (c : ckct N) (rotidx : Z) (h : hoisted N) (rk : rotset N) : proc (ckct N) :=
    ids <~ pres (IDSetOf (o 0%nat 1%nat) (cv c)) ;;
    level <~ pres (ctLevel (cv c)) ;;
    let out := NewCiphertext (o 0%nat 2%nat) ids level in
    k <~ pres (rotNorm (N := N) rotidx) ;;
    v <~ (if k =? 0 then pres (Copy (o 0%nat 0%nat) out (cv c)) else
          match mget Z.eq_dec crs k with
          | Some _ => RotateP pp (o 0%nat) crs (Some h) (cv c) k rk out
          | None => Fail
          end) ;;
    Ret (CK v (csc c)).
  (** mkckks/evaluator.go:530-540 *)
  Definition ConjugateNewP pp (o : order) (crs : crsT N) (c : ckct N) (ck : conjset N) : proc (ckct N) :=
    ids <~ pres (IDSetOf (o 60%nat) (cv c)) ;;
    level <~ pres (ctLevel (cv c)) ;;
    v <~ ConjugateP pp o crs (cv c) ck (NewCiphertext (o 61%nat) ids level) ;;
    Ret (CK v (csc c)).
  (** mkbfv/evaluator.go:154-192 *)
  Definition bRotateNewP b (o : nat -> order) (crs : crsT N) (c : ct) (rotidx : Z) (rk : rotset N) : proc ct :=
    ids <~ pres (IDSetOf (o 0%nat 1%nat) c) ;;
    let out := bNewCiphertext (ppQ b) (o 0%nat 2%nat) ids in
    k <~ pres (rotNorm (N := N) rotidx) ;;
    if k =? 0 then pres (Copy (o 0%nat 0%nat) out c) else
    tmp <~ pres (CopyNew (o 0%nat 0%nat) c) ;;
    match mget Z.eq_dec crs k with
    | Some _ => RotateP (ppQ b) (o 0%nat) crs None tmp k rk out
    | None => rotChainP (ppQ b) o crs (Z.to_nat k) 1 k rk tmp out
    end.
  (** mkbfv/evaluator.go:197-208 *)
  Definition bConjugateNewP b (o : order) (crs : crsT N) (c : ct) (ck : conjset N) : proc ct :=
    ids <~ pres (IDSetOf (o 60%nat) c) ;;
    tmp <~ pres (CopyNew (o 62%nat) c) ;;
    ConjugateP (ppQ b) o crs tmp ck (bNewCiphertext (ppQ b) (o 61%nat) ids).
End Model.
