(** Model of MulRelinNew calls that run concurrently on different Evaluators and share one RelinearizationKeySet (mkckks/evaluator.go:416-443, mkrlwe/keys.go:54-58, 165-187).
    Each Evaluator has its own KeySwitcher; the decomposition buffers HoistPool[0], HoistPool[1] belong to the key set and are shared.
    A step of a call is one Decompose into a shared buffer (evaluator.go:421-423, 432-438), one read of a shared buffer, or the multiplication on the digits read.
    Simplifications: a step is atomic, and the digits of an identity are read once, at any moment between the decomposition and the multiplication, where
    keyswitch_hoisted.go:76-112, 150-178 reads them twice; for the schedules on which the calls return their own products every read returns the same digits
    (PropsShare.C32_buffers_stable), and the schedule that refutes the general claim has no write between the reads. *)
From Flocq Require Import Core BinarySingleNaN.
From Verif Require Import Base IdSetModel KeySetModel NumTheory Negacyclic Ntt Word FloatModel CkksFloat BasisExt BasisExtProofs Rows RlweModel KeyGenModel Galois CtModel KeySwitchModel CkksModel KsPool EvalPool.
Open Scope Z_scope.

Section Model.
  Context {N : nat}.
  Notation kst := (kst N).
  Implicit Types (pp : rparams).
  (** what a goroutine does next; the boolean says which of the two pools *)
  Inductive instr := IHoist (second : bool) (id : string) | IRead (second : bool) (id : string) | IMul.
  (** one call MulRelinNew(op0, op1, rlkSet): its operands, the iteration orders of its map loops, its KeySwitcher, what is left to do, the digits read, its outcome *)
  Record thread := Th { tc0 : ckct N; tc1 : ckct N; tsame : bool; tord : order; tks : kst; tprog : list instr; tl0 : hoisted N; tl1 : hoisted N; tout : option (res (ckct N)) }.
  (** evaluator.go:418-443 *)
  Definition mulProg (o : order) (c0 c1 : ckct N) (same : bool) : res (list instr) :=
    ids0 <- IDSetOf (o 60%nat) (cv c0) ;;
    let l0 := o 61%nat (keys ids0) in
    if same then Ok (map (IHoist false) l0 ++ map (IRead false) l0 ++ [IMul]) else
    ids1 <- IDSetOf (o 62%nat) (cv c1) ;;
    let l1 := o 63%nat (keys ids1) in
    Ok (map (IHoist false) l0 ++ map (IHoist true) l1 ++ map (IRead false) l0 ++ map (IRead true) l1 ++ [IMul]).
  Definition begin (o : order) (ks : kst) (c0 c1 : ckct N) (same : bool) : res thread := p <- mulProg o c0 c1 same ;; Ok (Th c0 c1 same o ks p nil nil None).
  Definition setprog (t : thread) p : thread := Th (tc0 t) (tc1 t) (tsame t) (tord t) (tks t) p (tl0 t) (tl1 t) (tout t).
  Definition setks (t : thread) k : thread := Th (tc0 t) (tc1 t) (tsame t) (tord t) k (tprog t) (tl0 t) (tl1 t) (tout t).
  Definition setl (second : bool) (t : thread) h : thread :=
    if second then Th (tc0 t) (tc1 t) (tsame t) (tord t) (tks t) (tprog t) (tl0 t) h (tout t) else Th (tc0 t) (tc1 t) (tsame t) (tord t) (tks t) (tprog t) h (tl1 t) (tout t).
  Definition fin (t : thread) k r : thread := Th (tc0 t) (tc1 t) (tsame t) (tord t) k nil (tl0 t) (tl1 t) (Some r).
  (** HoistPool[0] and HoistPool[1] *)
  Definition heap : Type := hoisted N * hoisted N.
  Definition hsel (second : bool) (h : heap) : hoisted N := if second then snd h else fst h.
  Definition hupd (second : bool) (h : heap) x : heap := if second then (fst h, x) else (x, snd h).
  (** one instruction; a panic ends the call *)
  Definition exec pp (crs : crsT N) (pscale : f64) (rs : rlkset N) (t : thread) (h : heap) : thread * heap :=
    match tprog t with
    | nil => (t, h)
    | IHoist b id :: rest =>
        let c := if b then tc1 t else tc0 t in
        match (level <- ctLevel (cv c) ;; p <- cgetL (cv c) id level ;; buf <- hget (hsel b h) id ;; DecSt pp level (tks t) p buf) with
        | Ok (ks, d) => (setks (setprog t rest) ks, hupd b h (mset seq_dec (hsel b h) id d))
        | Panic => (fin t (tks t) Panic, h)
        end
    | IRead b id :: rest =>
        match hget (hsel b h) id with
        | Ok d => (setl b (setprog t rest) (mset seq_dec (if b then tl1 t else tl0 t) id d), h)
        | Panic => (fin t (tks t) Panic, h)
        end
    | IMul :: _ =>
        match MulRelinHoistedNewSt pp (tord t) crs pscale (tks t) (tc0 t) (tc1 t) (Some (tl0 t)) (Some (if tsame t then tl0 t else tl1 t)) rs with
        | Ok (ks, c) => (fin t ks (Ok c), h)
        | Panic => (fin t (tks t) Panic, h)
        end
    end.
  (** the schedule: which call makes the next step (a number that is no call makes none) *)
  Fixpoint set_nth {A} (i : nat) (x : A) (l : list A) : list A :=
    match l, i with nil, _ => nil | _ :: l, O => x :: l | y :: l, S i => y :: set_nth i x l end.
  Fixpoint schedule pp (crs : crsT N) (pscale : f64) (rs : rlkset N) (sch : list nat) (ts : list thread) (h : heap) : list thread * heap :=
    match sch with
    | nil => (ts, h)
    | i :: sch => match nth_error ts i with
                  | Some t => let '(t', h') := exec pp crs pscale rs t h in schedule pp crs pscale rs sch (set_nth i t' ts) h'
                  | None => schedule pp crs pscale rs sch ts h
                  end
    end.
End Model.
Arguments thread : clear implicits.
Arguments heap : clear implicits.
