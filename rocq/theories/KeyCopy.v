(** Model of secret and public keys as objects on a heap (mkrlwe/keys.go:5-20, 70-122, 229-243, 286-312): a key holds references to polynomials, key sets hold references to keys,
    and CopyNew makes a new key.  [nil] key variables are [None]. *)
From Verif Require Import Base ExtShare.
Open Scope Z_scope.

(** keys.go:5-8, 16-20: Value is one PolyQP (polynomials Q and P) resp. two of them *)
Inductive kobj := SK (id : string) (q p : nat) | PK (id : string) (q0 p0 q1 p1 : nat).
Definition is_sk (o : kobj) : bool := match o with SK _ _ _ => true | PK _ _ _ _ _ => false end.
Definition comps (o : kobj) : list nat := match o with SK _ q p => [q; p] | PK _ q0 p0 q1 p1 => [q0; p0; q1; p1] end.
Definition kobj_id (o : kobj) : string := match o with SK id _ _ => id | PK id _ _ _ _ => id end.
Definition set_id (o : kobj) (id : string) : kobj := match o with SK _ q p => SK id q p | PK _ q0 p0 q1 p1 => PK id q0 p0 q1 p1 end.
(** the heap: words of the polynomials, the number of polynomials allocated, the key variables, the key sets (maps from ids to keys) *)
Record kheap := KH { kmem : mem; kfresh : nat; kobjs : list (option kobj); ksets : list (bool * gomap string nat) }.

(** ring.NewPoly: zero *)
Definition zeroPoly (m : mem) (p : nat) : mem := fun l => if (fst (fst l) =? p)%nat then 0 else m l.
(** ring.Poly.CopyNew: the words of [src] in the new polynomial [dst] *)
Definition copyPoly (m : mem) (src dst : nat) : mem := fun l => let '(p, i, x) := l in if (p =? dst)%nat then m (src, i, x) else m l.

Inductive kop :=
| KNewSecretKey (id : string) | KNewPublicKey (id : string) | KNil
| KCopyNew (k : nat)                                   (* x := keys[k].CopyNew() *)
| KWrite (k c i x : nat) (v : Z)                       (* one word of component c of key k *)
| KSetID (k : nat) (id : string)                       (* keys[k].ID = id *)
| KNewSet (sk : bool) | KAdd (s k : nat) | KDel (s : nat) (id : string).

(** replace entry i *)
Fixpoint put {A} (l : list A) (i : nat) (x : A) : list A := match l, i with nil, _ => nil | _ :: l, O => x :: l | y :: l, S i => y :: put l i x end.
(** the object a method is called on; nil panics (for CopyNew see below) *)
Definition obj (h : kheap) (k : nat) : res kobj := match nth_error (kobjs h) k with Some (Some o) => Ok o | _ => Panic end.

(** keys.go:229-234 *)
Definition hNewSecretKey (h : kheap) (id : string) : kheap :=
  let f := kfresh h in KH (zeroPoly (zeroPoly (kmem h) f) (f + 1)) (f + 2) (kobjs h ++ [Some (SK id f (f + 1))]) (ksets h).
(** keys.go:237-243 *)
Definition hNewPublicKey (h : kheap) (id : string) : kheap :=
  let f := kfresh h in
  KH (zeroPoly (zeroPoly (zeroPoly (zeroPoly (kmem h) f) (f + 1)) (f + 2)) (f + 3)) (f + 4) (kobjs h ++ [Some (PK id f (f + 1) (f + 2) (f + 3))]) (ksets h).
(** keys.go:287-297 and 300-312 *)
Definition hCopyKey (h : kheap) (k : nat) : res kheap :=
  let f := kfresh h in
  match nth_error (kobjs h) k with
  | None => Panic
  | Some None => Ok (KH (kmem h) f (kobjs h ++ [None]) (ksets h))
  | Some (Some (SK id q p)) => Ok (KH (copyPoly (copyPoly (kmem h) q f) p (f + 1)) (f + 2) (kobjs h ++ [Some (SK id f (f + 1))]) (ksets h))
  | Some (Some (PK id q0 p0 q1 p1)) =>
      Ok (KH (copyPoly (copyPoly (copyPoly (copyPoly (kmem h) q0 f) p0 (f + 1)) q1 (f + 2)) p1 (f + 3)) (f + 4)
             (kobjs h ++ [Some (PK id f (f + 1) (f + 2) (f + 3))]) (ksets h))
  end.
(** keys.go:70-92, 97-119: a set of secret keys takes secret keys, one of public keys public keys *)
Definition hAdd (h : kheap) (s k : nat) : res kheap :=
  o <- obj h k ;;
  match nth_error (ksets h) s with
  | Some (sk, m) => if Bool.eqb sk (is_sk o) then Ok (KH (kmem h) (kfresh h) (kobjs h) (put (ksets h) s (sk, mset seq_dec m (kobj_id o) k))) else Panic
  | None => Panic
  end.
Definition hDel (h : kheap) (s : nat) (id : string) : res kheap :=
  match nth_error (ksets h) s with
  | Some (sk, m) => Ok (KH (kmem h) (kfresh h) (kobjs h) (put (ksets h) s (sk, mdel seq_dec m id)))
  | None => Panic
  end.
Definition kstep (h : kheap) (o : kop) : res kheap :=
  match o with
  | KNewSecretKey id => Ok (hNewSecretKey h id)
  | KNewPublicKey id => Ok (hNewPublicKey h id)
  | KNil => Ok (KH (kmem h) (kfresh h) (kobjs h ++ [None]) (ksets h))
  | KCopyNew k => hCopyKey h k
  | KWrite k c i x v => o <- obj h k ;; match nth_error (comps o) c with
                                        | Some p => Ok (KH (mupd (kmem h) (p, i, x) v) (kfresh h) (kobjs h) (ksets h))
                                        | None => Panic end
  | KSetID k id => o <- obj h k ;; Ok (KH (kmem h) (kfresh h) (put (kobjs h) k (Some (set_id o id))) (ksets h))
  | KNewSet sk => Ok (KH (kmem h) (kfresh h) (kobjs h) (ksets h ++ [(sk, nil)]))
  | KAdd s k => hAdd h s k
  | KDel s id => hDel h s id
  end.
Definition kheap0 : kheap := KH (fun _ => 0) 0 nil nil.
Definition krun (h : kheap) (ops : list kop) : res kheap := rfold kstep ops h.
(** keys.go:85-92, 112-119: the key (variable) returned *)
Definition hGet (h : kheap) (s : nat) (id : string) : res nat :=
  match nth_error (ksets h) s with Some (_, m) => match mget seq_dec m id with Some k => Ok k | None => Panic end | None => Panic end.
