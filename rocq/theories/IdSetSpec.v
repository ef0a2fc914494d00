(** Specification of IDSet programs: objects are mathematical sets of strings. *)
From Verif Require Import Base IdSetModel.

Definition sset := string -> Prop.

(** [card S n]: S is finite with exactly n elements. *)
Definition card (S : sset) (n : nat) : Prop :=
  exists l, NoDup l /\ (forall x, In x l <-> S x) /\ length l = n.

Definition sadd (S : sset) v : sset := fun x => x = v \/ S x.
Definition sdel (S : sset) v : sset := fun x => x <> v /\ S x.

(** One operation of a program on a store of sets: new objects are appended, an Add/Remove changes one
    object only, queries change none.  The relation has no case for Add "0": it must panic. *)
Inductive sstep : list sset -> isop -> list sset -> isout -> Prop :=
| SNew H : sstep H ONew (H ++ [fun _ => False]) (Handle (length H))
| SAdd H h v S : nth_error H h = Some S -> v <> id0 -> sstep H (OAdd h v) (upd H h (sadd S v)) NoOut
| SRemove H h v S : nth_error H h = Some S -> sstep H (ORemove h v) (upd H h (sdel S v)) NoOut
| SCopy H h S : nth_error H h = Some S -> sstep H (OCopy h) (H ++ [S]) (Handle (length H))
| SUnion H a b S T : nth_error H a = Some S -> nth_error H b = Some T ->
    sstep H (OUnion a b) (H ++ [fun x => S x \/ T x]) (Handle (length H))
| SInter H a b S T : nth_error H a = Some S -> nth_error H b = Some T ->
    sstep H (OInter a b) (H ++ [fun x => S x /\ T x]) (Handle (length H))
| SHas H h v S b : nth_error H h = Some S -> (b = true <-> S v) -> sstep H (OHas h v) H (Bool b)
| SSize H h S n : nth_error H h = Some S -> card S n -> sstep H (OSize h) H (Num n).

Inductive srun : list sset -> list isop -> list sset -> list isout -> Prop :=
| RNil H : srun H nil H nil
| RCons H o H1 out os H2 outs : sstep H o H1 out -> srun H1 os H2 outs -> srun H (o :: os) H2 (out :: outs).

(** A program is legal when every object it names has been created and it never adds "0".
    [k] is the number of objects alive. *)
Fixpoint legal (k : nat) (ops : list isop) : Prop :=
  match ops with
  | nil => True
  | ONew :: t => legal (S k) t
  | OAdd h v :: t => h < k /\ v <> id0 /\ legal k t
  | ORemove h _ :: t => h < k /\ legal k t
  | OCopy h :: t => h < k /\ legal (S k) t
  | OUnion a b :: t | OInter a b :: t => a < k /\ b < k /\ legal (S k) t
  | OHas h _ :: t | OSize h :: t => h < k /\ legal k t
  end.
