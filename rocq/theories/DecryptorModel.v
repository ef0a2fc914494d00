(** Model of the mkckks Decryptor object (mkckks/decryptor.go): the plaintext buffer it keeps between calls. *)
From Verif Require Import Base IdSetModel NumTheory Negacyclic Ntt Word BasisExt Rows RlweModel KeyGenModel CtModel.
Open Scope Z_scope.

Section Model.
  Context {N : nat}.
  Notation ct := (ctT N).

  (** mkckks/decryptor.go:14-24: a plaintext at the maximum level, coefficient domain *)
  Definition newPool (pp : rparams) : poly N := zeroP (length (Qm pp)).
  (** decryptor.go (mkrlwe) 50-51: the rows of the plaintext above the level of the ciphertext are cut off *)
  Definition truncPool (pool : poly N) (lc : nat) : poly N := Pol (firstn (S (Nat.min lc (plevel pool))) (prows pool)) (pntt pool).

  (** mkckks/decryptor.go:35-44 up to the decoding: new buffer and the plaintext polynomial handed to Decode.
      A panic (no component "0", or a missing secret key) leaves the buffer as it then is; the caller may recover. *)
  Definition ckDecrypt (pp : rparams) (o : order) (pool : poly N) (c : ct) (sks : gomap string (secretKey N)) : poly N * res (poly N) :=
    match CopyNew (o 3%nat) c with
    | Panic => (pool, Panic)
    | Ok c1 =>
        match ctLevel c1 with
        | Panic => (pool, Panic)
        | Ok lc =>
            let pool1 := truncPool pool lc in
            match Decrypt pp o c1 sks pool1 with
            | Ok p => (p, Ok p)
            | Panic => (pool1, Panic)
            end
        end
    end.

  (** one earlier call of Decrypt on the same object: iteration orders of its maps, ciphertext, key set *)
  Record call := Call { call_o : order; call_c : ct; call_k : gomap string (secretKey N) }.
  (** the buffer after a history of calls, panics recovered *)
  Definition poolAfter (pp : rparams) (h : list call) : poly N :=
    fold_left (fun pool k => fst (ckDecrypt pp (call_o k) pool (call_c k) (call_k k))) h (newPool pp).
End Model.
Arguments call : clear implicits.
