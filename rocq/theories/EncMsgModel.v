(** Model of EncryptMsgNew (mkckks/encryptor.go:51-58, mkbfv/encryptor.go:47-60).
    Encoding (lattigo ckks/bfv Encoder, a dependency) is an input: [pt] is the plaintext polynomial it wrote. *)
From Verif Require Import Base IdSetModel NumTheory Negacyclic Ntt Word BasisExt Rows RlweModel KeyGenModel CtModel.
Open Scope Z_scope.

Definition EncryptMsgNew {N} pp (o : list string -> list string) (pt : poly N) (pk : publicKey N) (u e0 e1 : list (R N)) : res (ctT N) :=
  ids <- is_add is_new (pk_id pk) ;;
  Encrypt pp pt pk (NewCiphertext o ids (maxLevel pp)) u e0 e1.
