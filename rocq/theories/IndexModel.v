(** Model of the index logic around rotation keys and key pairs: mkrlwe/keygen.go GenDefaultRotationKeys, GenKeyPair, GenKeyPairSparse. *)
From Verif Require Import Base KeySetModel NumTheory Negacyclic Ntt Word BasisExt Rows RlweModel KeyGenModel KeySwitchModel.
Open Scope Z_scope.

Section Model.
  Context {N : nat}.
  Implicit Types (pp : rparams).
  (** keys.go:130-140 at the key type of rotations *)
  Definition AddRotationKey (s : rotset N) (k : rotKey N) : rotset N := rk_add rtk_id rtk_idx s k.

  (** keygen.go:232-237: for rotidx := 1; rotidx < N/2; rotidx *= 2.
      [smp i] are the error rows sampled for index i; [Panic] also stands for running out of fuel (an endless loop). *)
  Fixpoint default_loop pp (fuel : nat) (crs : crsT N) (rotidx : Z) (sk : secretKey N) (smp : Z -> nat -> list (R N)) (s : rotset N) : res (rotset N) :=
    if rotidx <? Z.of_nat (N / 2) then
      match fuel with
      | O => Panic
      | S f => key <- GenRotationKey pp crs rotidx sk (smp rotidx) ;; default_loop pp f crs (rotidx * 2) sk smp (AddRotationKey s key)
      end
    else Ok s.
  Definition GenDefaultRotationKeys pp (crs : crsT N) (sk : secretKey N) (smp : Z -> nat -> list (R N)) (s : rotset N) : res (rotset N) :=
    default_loop pp N crs 1 sk smp s.

  (** keygen.go:112-115 *)
  Definition GenKeyPair pp (crs : crsT N) (id : string) (ss se : list (R N)) : res (secretKey N * publicKey N) :=
    let sk := genSecretKeyFromSampler pp id ss in
    pk <- GenPublicKey pp crs sk se ;; Ok (sk, pk).
  (** a method call on a *SecretKey variable: a nil pointer panics when its ID is read *)
  Definition deref {A} (p : option A) : res A := match p with Some x => Ok x | None => Panic end.
  (** keygen.go:118-121: the named result sk is nil when sk.ID is evaluated *)
  Definition GenKeyPairSparse pp (crs : crsT N) (hw : Z) (ss se : list (R N)) : res (secretKey N * publicKey N) :=
    let sk : option (secretKey N) := None in
    sk0 <- deref sk ;;
    let sk := genSecretKeyFromSampler pp (sk_id sk0) ss in
    pk <- GenPublicKey pp crs sk se ;; Ok (sk, pk).
End Model.
