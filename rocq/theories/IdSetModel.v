(** Model of mkrlwe/idset.go: IDSet objects on a heap. *)
From Verif Require Import Base.

(** idset.go:3-5  type IDSet struct { Value map[string]struct{} } *)
Definition idset := gomap string unit.

(** idset.go:7-10  Has *)
Definition is_has (s : idset) (v : string) : bool := mhas seq_dec s v.

(** idset.go:12-17  Add: panics on the reserved name *)
Definition is_add (s : idset) (v : string) : res idset :=
  if string_dec v id0 then Panic else Ok (mset seq_dec s v tt).

(** idset.go:19-21  Remove *)
Definition is_remove (s : idset) (v : string) : idset := mdel seq_dec s v.

(** idset.go:23-25  Size = len(map) *)
Definition is_size (s : idset) : nat := length s.

(** idset.go:27-31  NewIDSet *)
Definition is_new : idset := nil.

(** The order in which [range] visits a map: [ord] is any function that permutes the key list;
    the [nat] argument lets every loop of a program use another order. *)
Definition order := nat -> list string -> list string.
Definition order_ok (ord : order) : Prop := forall n l, Permutation (ord n l) l.

(** idset.go:33-39  CopyNew *)
Definition is_copy (ord : order) (n : nat) (s : idset) : res idset :=
  rfold (fun r v => is_add r v) (ord n (keys s)) is_new.

(** idset.go:41-50  Intersection: ranges over s2, tests membership in s *)
Definition is_inter (ord : order) (n : nat) (s s2 : idset) : res idset :=
  rfold (fun r v => if is_has s v then is_add r v else Ok r) (ord n (keys s2)) is_new.

(** idset.go:52-62  Union *)
Definition is_union (ord : order) (n : nat) (s s2 : idset) : res idset :=
  r <- rfold (fun r v => is_add r v) (ord n (keys s)) is_new ;;
  rfold (fun r v => is_add r v) (ord (S n) (keys s2)) r.

(** A program that manipulates IDSet objects: [h] names an object (a pointer, here an index into the heap;
    a dangling index stands for a nil pointer and panics). *)
Inductive isop :=
| ONew | OAdd (h : nat) (v : string) | ORemove (h : nat) (v : string)
| OCopy (h : nat) | OUnion (h1 h2 : nat) | OInter (h1 h2 : nat)
| OHas (h : nat) (v : string) | OSize (h : nat).

Inductive isout := NoOut | Handle (h : nat) | Bool (b : bool) | Num (n : nat).

Definition isheap := list idset.

Fixpoint upd {A} (l : list A) (i : nat) (x : A) : list A :=
  match l, i with
  | nil, _ => nil
  | _ :: t, O => x :: t
  | y :: t, S i' => y :: upd t i' x
  end.

Definition hget {A} (H : list A) (h : nat) : res A :=
  match nth_error H h with Some s => Ok s | None => Panic end.

Definition isstep (ord : order) (n : nat) (H : isheap) (o : isop) : res (isheap * isout) :=
  match o with
  | ONew => Ok (H ++ [is_new], Handle (length H))
  | OAdd h v => s <- hget H h ;; s' <- is_add s v ;; Ok (upd H h s', NoOut)
  | ORemove h v => s <- hget H h ;; Ok (upd H h (is_remove s v), NoOut)
  | OCopy h => s <- hget H h ;; s' <- is_copy ord n s ;; Ok (H ++ [s'], Handle (length H))
  | OUnion a b => s <- hget H a ;; t <- hget H b ;; s' <- is_union ord n s t ;; Ok (H ++ [s'], Handle (length H))
  | OInter a b => s <- hget H a ;; t <- hget H b ;; s' <- is_inter ord n s t ;; Ok (H ++ [s'], Handle (length H))
  | OHas h v => s <- hget H h ;; Ok (H, Bool (is_has s v))
  | OSize h => s <- hget H h ;; Ok (H, Num (is_size s))
  end.

Fixpoint isrun (ord : order) (n : nat) (H : isheap) (ops : list isop) : res (isheap * list isout) :=
  match ops with
  | nil => Ok (H, nil)
  | o :: os =>
      '(H1, out) <- isstep ord n H o ;;
      '(H2, outs) <- isrun ord (n + 2) H1 os ;;
      Ok (H2, out :: outs)
  end.
