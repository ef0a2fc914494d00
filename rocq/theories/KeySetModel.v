(** Model of the key sets of mkrlwe/keys.go and mkbfv/keys.go.
    Keys are opaque ([Key]) with an id (and a rotation index); the code stores pointers and never looks inside. *)
From Verif Require Import Base.

(** keys.go:71-92 SecretKeySet, 94-119 PublicKeySet, 197-224 ConjugationKeySet,
    mkbfv/keys.go RelinearizationKeySet.  The four types have the same code up to the key type:
    Add: Value[k.ID] = k;  Del: delete(Value, id);  Get: panic when absent. *)
Section Simple.
  Context {Key : Type} (kid : Key -> string).

  Definition ks := gomap string Key.
  Definition ks_new : ks := nil.
  Definition ks_add (s : ks) (k : Key) : ks := mset seq_dec s (kid k) k.
  Definition ks_del (s : ks) (id : string) : ks := mdel seq_dec s id.
  Definition ks_get (s : ks) (id : string) : res Key :=
    match mget seq_dec s id with Some k => Ok k | None => Panic end.

  Inductive ksop := KAdd (k : Key) | KDel (id : string).
  Definition ks_step (s : ks) (o : ksop) : ks :=
    match o with KAdd k => ks_add s k | KDel id => ks_del s id end.
  Definition ks_run (ops : list ksop) : ks := fold_left ks_step ops ks_new.
End Simple.
Arguments ks : clear implicits.
Arguments ksop : clear implicits.

(** keys.go:54-58, 168-195 RelinearizationKeySet: Add also (re)creates the two hoisting buffers of the id,
    Del leaves them in place. [blank] stands for NewSwitchingKey(params) (all zero). *)
Section Relin.
  Context {Key Buf : Type} (kid : Key -> string) (blank : Buf).

  Record rlkset := { rv : gomap string Key; rp0 : gomap string Buf; rp1 : gomap string Buf }.
  Definition rl_new : rlkset := {| rv := nil; rp0 := nil; rp1 := nil |}.
  Definition rl_add (s : rlkset) (k : Key) : rlkset :=
    {| rv := mset seq_dec (rv s) (kid k) k;
       rp0 := mset seq_dec (rp0 s) (kid k) blank;
       rp1 := mset seq_dec (rp1 s) (kid k) blank |}.
  Definition rl_del (s : rlkset) (id : string) : rlkset :=
    {| rv := mdel seq_dec (rv s) id; rp0 := rp0 s; rp1 := rp1 s |}.
  Definition rl_get (s : rlkset) (id : string) : res Key :=
    match mget seq_dec (rv s) id with Some k => Ok k | None => Panic end.
  Definition rl_step (s : rlkset) (o : ksop Key) : rlkset :=
    match o with KAdd k => rl_add s k | KDel id => rl_del s id end.
  Definition rl_run (ops : list (ksop Key)) : rlkset := fold_left rl_step ops rl_new.
End Relin.

(** keys.go:61-63, 121-166 RotationKeySet: a map of maps. *)
Section Rot.
  Context {Key : Type} (kid : Key -> string) (kidx : Key -> Z).

  Definition rks := gomap string (gomap Z Key).
  Definition rk_new : rks := nil.
  (** keys.go:130-140 AddRotationKey: creates the inner map when the id is new *)
  Definition rk_add (s : rks) (k : Key) : rks :=
    let s1 := match mget seq_dec s (kid k) with
              | Some _ => s
              | None => mset seq_dec s (kid k) nil
              end in
    match mget seq_dec s1 (kid k) with
    | Some inner => mset seq_dec s1 (kid k) (mset Z.eq_dec inner (kidx k) k)
    | None => s1 (* unreachable *)
    end.
  (** keys.go:143-145 DelRotationKey: delete on the (possibly nil) inner map *)
  Definition rk_del (s : rks) (id : string) (idx : Z) : rks :=
    match mget seq_dec s id with
    | Some inner => mset seq_dec s id (mdel Z.eq_dec inner idx)
    | None => s
    end.
  (** keys.go:148-159 GetRotationKey *)
  Definition rk_get (s : rks) (id : string) (idx : Z) : res Key :=
    match mget seq_dec s id with
    | None => Panic
    | Some inner => match mget Z.eq_dec inner idx with None => Panic | Some k => Ok k end
    end.

  Inductive rkop := RAdd (k : Key) | RDel (id : string) (idx : Z).
  Definition rk_step (s : rks) (o : rkop) : rks :=
    match o with RAdd k => rk_add s k | RDel id idx => rk_del s id idx end.
  Definition rk_run (ops : list rkop) : rks := fold_left rk_step ops rk_new.
End Rot.
Arguments rkop : clear implicits.
