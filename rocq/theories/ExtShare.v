(** Model of FastBasisExtender objects used by several goroutines (/repo/mkrlwe/basis_extension.go:12-22, 57-80, 155-232, 288-357, 540-646).
    Memory is a collection of polynomials, each an array of rows of 64-bit words; a step of a goroutine reads one word into a local variable or writes one word
    computed from its local variables.  The code works on eight coefficients at a time: it loads eight words of every input row, computes, and stores eight words of
    every output row; the model makes the same accesses in the same order.
    Simplifications: a word access is atomic and sequentially consistent; the tables of the extender, which nothing writes after construction, are read as values;
    a panic ends its own goroutine (in Go it would end the program). *)
From Verif Require Import Base BasisExt.
Open Scope Z_scope.

(** one word of memory: polynomial, row, coefficient *)
Definition loc : Type := nat * nat * nat.
Definition loc_eqb (l l' : loc) : bool :=
  let '(p, i, x) := l in let '(p', i', x') := l' in ((p =? p') && (i =? i') && (x =? x'))%nat.
Definition mem : Type := loc -> Z.
Definition mupd (m : mem) (l : loc) (v : Z) : mem := fun l' => if loc_eqb l l' then v else m l'.
(** local variables of a goroutine *)
Definition regs : Type := nat -> nat -> Z.
Definition rupd (r : regs) (i k : nat) (v : Z) : regs := fun i' k' => if ((i =? i') && (k =? k'))%nat then v else r i' k'.
Inductive mop := Load (i k : nat) (l : loc) | Store (l : loc) (f : regs -> res Z).
Record gor := Gor { gprog : list mop; gregs : regs; gpanic : bool }.

(** one step of one goroutine *)
Definition gstep (g : gor) (m : mem) : gor * mem :=
  match gprog g with
  | nil => (g, m)
  | Load i k l :: rest => (Gor rest (rupd (gregs g) i k (m l)) (gpanic g), m)
  | Store l f :: rest => match f (gregs g) with
                         | Ok v => (Gor rest (gregs g) (gpanic g), mupd m l v)
                         | Panic => (Gor nil (gregs g) true, m)
                         end
  end.
(** a schedule says who makes the next step; a number that is no goroutine makes none *)
Fixpoint gset (i : nat) (x : gor) (l : list gor) : list gor :=
  match l, i with nil, _ => nil | _ :: l, O => x :: l | y :: l, S i => y :: gset i x l end.
Fixpoint gsched (sch : list nat) (gs : list gor) (m : mem) : list gor * mem :=
  match sch with
  | nil => (gs, m)
  | i :: sch => match nth_error gs i with
                | Some g => let '(g', m') := gstep g m in gsched sch (gset i g' gs) m'
                | None => gsched sch gs m
                end
  end.

(** basis_extension.go:337-357 with reconstructRNS (538-578) and multSum (582-646): the accesses of modUpExact for rings of degree n, from the first levelQ+1 rows of
    polynomial [src] to the first levelP+1 rows of polynomial [dst] *)
Definition upBlock (Q P : list Z) (levelQ levelP src dst b : nat) : list mop :=
  map (fun ik => Load (fst ik) (snd ik) (src, fst ik, 8 * b + snd ik)%nat) (list_prod (seq 0 (S levelQ)) (seq 0 8)) ++
  map (fun jk => Store (dst, fst jk, 8 * b + snd jk)%nat
                   (fun r => out <- ModUp Q P levelQ levelP (map (fun i => r i (snd jk)) (seq 0 (S levelQ))) ;; idx out (fst jk)))
      (list_prod (seq 0 (S levelP)) (seq 0 8)).
Definition upProg (n : nat) (Q P : list Z) (levelQ levelP src dst : nat) : list mop :=
  flat_map (upBlock Q P levelQ levelP src dst) (seq 0 (n / 8)).
(** basis_extension.go:203-228 (and 305-330 with the rings exchanged): z = MRed(y + 2q - x, q - params[i]), x from [p1], y from [pool], z to [p2]; [lvl] selects the row of constants *)
Definition divStep (Q P : list Z) (lvl p1 pool p2 : nat) (ix : nat * nat) : list mop :=
  [ Load 0 0 (pool, fst ix, snd ix); Load 1 0 (p1, fst ix, snd ix);
    Store (p2, fst ix, snd ix) (fun r => md <- idx (genModDownParams Q P) lvl ;; Ok (md_out (nth (fst ix) Q 0) (r 1%nat 0%nat) (r 0%nat 0%nat) (nth (fst ix) md 0))) ].
Definition divProg (n : nat) (Q P : list Z) (levelQ lvl p1 pool p2 : nat) : list mop :=
  flat_map (divStep Q P lvl p1 pool p2) (list_prod (seq 0 (S levelQ)) (seq 0 n)).

(** basis_extension.go:12-22: the extender; its tables are functions of the two lists of moduli *)
Record fbe := FBE { eQ : list Z; eP : list Z; poolQ : nat; poolP : nat }.
(** the heap: polynomials are numbered in the order of allocation; an extender variable may be nil *)
Record world := World { fresh : nat; exts : list (option fbe); polys : list nat }.
Inductive hop := NewExtender (Q P : list Z) | NilExtender | ShallowCopyOf (e : nat) | NewPolynomial.
(** basis_extension.go:57-80 *)
Definition newFastBasisExtender (w : world) (Q P : list Z) : world :=
  World (fresh w + 2) (exts w ++ [Some (FBE Q P (fresh w) (fresh w + 1))]) (polys w).
(** basis_extension.go:157-172 *)
Definition shallowCopy (w : world) (e : option fbe) : world :=
  match e with
  | None => World (fresh w) (exts w ++ [None]) (polys w)
  | Some x => World (fresh w + 2) (exts w ++ [Some (FBE (eQ x) (eP x) (fresh w) (fresh w + 1))]) (polys w)
  end.
Definition hstep (w : world) (o : hop) : world :=
  match o with
  | NewExtender Q P => newFastBasisExtender w Q P
  | NilExtender => World (fresh w) (exts w ++ [None]) (polys w)
  | ShallowCopyOf e => match nth_error (exts w) e with Some x => shallowCopy w x | None => w end
  | NewPolynomial => World (S (fresh w)) (exts w) (polys w ++ [fresh w])
  end.
Definition world0 : world := World 0 nil nil.
Definition history (h : list hop) : world := fold_left hstep h world0.

(** calls ModDownQPtoQ / ModDownQPtoP (levelQ, levelP, p1Q, p1P, p2) on the extender number [cExt] of the world; [cToQ] says which *)
Record call := Call { cToQ : bool; cExt : nat; cLQ : nat; cLP : nat; c1Q : nat; c1P : nat; c2 : nat }.
(** basis_extension.go:192-232 and 294-334 *)
Definition callProg (n : nat) (x : fbe) (c : call) : list mop :=
  if cToQ c then upProg n (eP x) (eQ x) (cLP c) (cLQ c) (c1P c) (poolQ x) ++ divProg n (eQ x) (eP x) (cLQ c) (cLP c) (c1Q c) (poolQ x) (c2 c)
  else upProg n (eQ x) (eP x) (cLQ c) (cLP c) (c1Q c) (poolP x) ++ divProg n (eP x) (eQ x) (cLP c) (cLP c) (c1P c) (poolP x) (c2 c).
(** a goroutine that makes the call; a nil extender panics at the first field access *)
Definition startCall (n : nat) (w : world) (c : call) : gor :=
  match nth_error (exts w) (cExt c) with
  | Some (Some x) => Gor (callProg n x c) (fun _ _ => 0) false
  | _ => Gor nil (fun _ _ => 0) true
  end.
