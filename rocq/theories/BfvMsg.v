(** mkbfv messages: vectors of integers.  EncryptMsgNew encodes with lattigo's bfv.Encoder and encrypts, Decrypt decrypts and decodes
    (mkbfv/encryptor.go:38-60, decryptor.go:34-57).  The encoder is a dependency (lattigo v2 bfv/encoder.go): EncodeInt and DecodeInt are modelled by the algorithm they document,
    the rounding divisions ScaleUp and ScaleDown as exact roundings, the NTT modulo t in natural order (Ntt.v).
    Client programs: CopyNew and the exported calls of the Evaluator, on shared storage (HeapBfv.v).
    Specification side: the same program on vectors of integers. *)
From Verif Require Import Base IdSetModel KeySetModel NumTheory Negacyclic Ntt Word BasisExt Rows RlweModel KeyGenModel Galois CtModel KeySwitchModel SchemeSpec BasisSpec ExtProps Digits RotProofs PropsKeySwitch PropsRotate EncMsgModel FloatModel CkksFloat CkksModel BfvModel BfvMulModel BfvMulProofs PropsBfvMul Instance LeakSpec HeapModel HeapEval HeapBfv BfvCircuit.
Open Scope Z_scope.

(** ** lattigo's bfv.Encoder *)
(** bfv/encoder.go, NewEncoder: the position, in the NTT domain, of entry i of a message: pos = 5^i mod 2N, index1 = (pos-1)/2, index2 = (2N-pos-1)/2 (there bit-reversed, the order of lattigo's NTT) *)
Definition slot_pos (N i : nat) : nat :=
  if (i <? N / 2)%nat then Z.to_nat ((5 ^ Z.of_nat i mod (2 * Z.of_nat N) - 1) / 2)
  else Z.to_nat ((2 * Z.of_nat N - 5 ^ Z.of_nat (i - N / 2) mod (2 * Z.of_nat N) - 1) / 2).
(** EncodeInt: t is added to negative values; the result is stored as uint64 *)
Definition enc_word (t c : Z) : Z := (if c <? 0 then t + c else c) mod 2 ^ 64.
(** DecodeInt: values above t/2 are made negative *)
Definition dec_word (t v : Z) : Z := if t / 2 <? v then v - t else v.

Section Encoder.
  Context {N : nat} (b : bparams) (root : Z).   (* root: the 2N-th root of unity RingT uses *)
  Notation R := (R N).
  Notation mt := (Mod (bT b) root).
  (** the entries of the message are written to their positions, the others are set to zero *)
  Definition fill_slots (vals : list Z) : list Z :=
    fold_left (fun a i => upd a (slot_pos N i) (enc_word (bT b) (nth i vals 0))) (seq 0 N) (repeat 0 N).
  (** EncodeIntRingT: panics for more than N values *)
  Definition EncodeRingT (vals : list Z) : res R :=
    if (N <? length vals)%nat then Panic else
    let a := fill_slots vals in Ok (intt mt (mkR (fun j => nth j a 0))).
  (** ScaleUp: the coefficients times Q/t, rounded to the nearest integer *)
  Definition ScaleUp (m : R) : poly N := Pol (rows_of (ppQ b) (mkR (fun i => (2 * (qprod b * co m i) + bT b) / (2 * bT b)))) false.
  Definition EncodeInt (vals : list Z) : res (poly N) := m <- EncodeRingT vals ;; Ok (ScaleUp m).
  (** ScaleDown: the integer with the given residues times t/Q, rounded, modulo t *)
  Definition ScaleDown (p : poly N) : R :=
    mkR (fun i => ((2 * (bT b * crt (qprod b) (combine (Qs (ppQ b)) (map (fun r => co r i) (prows p)))) + qprod b) / (2 * qprod b)) mod bT b).
  Definition DecodeInt (p : poly N) : list Z :=
    let y := ntt mt (ScaleDown p) in map (fun i => dec_word (bT b) (co y (slot_pos N i))) (seq 0 N).

  (** mkbfv/encryptor.go:38-60 *)
  Definition bEncryptMsgNew (o : list string -> list string) (vals : list Z) (pk : publicKey N) (u e0 e1 : list R) : res (ctT N) :=
    pt <- EncodeInt vals ;; EncryptMsgNew (ppQ b) o pt pk u e0 e1.
  (** mkbfv/decryptor.go:34-57 *)
  Definition bDecryptMsg (o : order) (c : ctT N) (sks : gomap string (secretKey N)) : res (list Z) :=
    p <- bDecrypt (ppQ b) o c sks ;; Ok (DecodeInt p).
End Encoder.

(** ** client programs *)
(** MCall: the calls of BfvCircuit.v.  MCopy a: CopyNew *)
Inductive minstr := MCall (i : binstr) | MCopy (a : nat).
Definition hbop_of {N} (i : minstr) : hbop N :=
  match i with
  | MCall (BAdd a c) => HeapBfv.BAdd a c | MCall (BSub a c) => HeapBfv.BSub a c | MCall (BMul a c) => HeapBfv.BMul a c
  | MCall (BRot a k) => HeapBfv.BRot a k | MCall (BConj a) => HeapBfv.BConj a | MCopy a => HeapBfv.BCopy a
  end.
(** one message: who encrypts, the values, and the encryption randomness *)
Record minput (N : nat) := MIn { mi_id : string; mi_v : list Z; mi_su : list (R N); mi_s0 : list (R N); mi_s1 : list (R N) }.
Arguments mi_id {N}. Arguments mi_v {N}. Arguments mi_su {N}. Arguments mi_s0 {N}. Arguments mi_s1 {N}.
Section Client.
  Context {N : nat} (b : bparams) (root : Z) (crs : crsT N) (rs : brlkset N) (rk : rotset N) (ck : conjset N).
  (** EncryptMsgNew on every message *)
  Definition mencrypt (pk : string -> publicKey N) (oe : nat -> list string -> list string) (ins : list (minput N)) : res (list (ctT N)) :=
    rmapM (fun k => match nth_error ins k with Some x => bEncryptMsgNew b root (oe k) (mi_v x) (pk (mi_id x)) (mi_su x) (mi_s0 x) (mi_s1 x) | None => Panic end) (seq 0 (length ins)).
  (** the server receives the ciphertexts and runs the program *)
  Definition mserver (w : nat -> nat -> order) (cs : list (ctT N)) (prog : list minstr) : res (hbworld N) :=
    hbrun b (HBE crs rs rk ck) w 0 (map (@BPut N) cs ++ map hbop_of prog) (HBW nil nil).
End Client.

(** ** what it stands for *)
Definition vec := nat -> Z.
Definition zvec : vec := fun _ => 0.
(** entries 0 .. N/2-1 are the first row, the others the second *)
Definition mplain (N : nat) (i : minstr) (vs : list vec) : vec :=
  let v a := nth a vs zvec in let h := (N / 2)%nat in
  match i with
  | MCall (BAdd a c) => fun j => v a j + v c j
  | MCall (BSub a c) => fun j => v a j - v c j
  | MCall (BMul a c) => fun j => v a j * v c j
  | MCall (BRot a k) => fun j => let k := Z.to_nat (k mod Z.of_nat h) in if (j <? h)%nat then v a ((j + k) mod h)%nat else v a (h + (j - h + k) mod h)%nat
  | MCall (BConj a) => fun j => if (j <? h)%nat then v a (j + h)%nat else v a (j - h)%nat
  | MCopy a => v a
  end.
Definition mplain_run (N : nat) (prog : list minstr) (vs : list vec) : list vec := fold_left (fun vs i => vs ++ [mplain N i vs]) prog vs.
Definition margs (i : minstr) : list nat := match i with MCall i => bargs i | MCopy a => [a] end.
Fixpoint mvalid (n : nat) (prog : list minstr) : Prop :=
  match prog with nil => True | i :: prog => (forall a, In a (margs i) -> (a < n)%nat) /\ mvalid (S n) prog end.
Definition mids (i : minstr) (ids : list (list string)) : list string := match i with MCall i => bids i ids | MCopy a => nth a ids nil end.
Definition mids_run (prog : list minstr) (ids : list (list string)) : list (list string) := fold_left (fun ids i => ids ++ [mids i ids]) prog ids.
Section Noise.
  Context {N : nat} (b : bparams) (crs : crsT N) (B T : Z).
  Definition mnoise (i : minstr) (ids : list (list string)) (Vs : list Z) : Z := match i with MCall i => bnoise b crs B T i ids Vs | MCopy a => nth a Vs 0 end.
  Fixpoint mnoise_run (prog : list minstr) (ids : list (list string)) (Vs : list Z) : list Z :=
    match prog with
    | nil => Vs
    | i :: prog => mnoise_run prog (ids ++ [mids i ids]) (Vs ++ [mnoise i ids Vs])
    end.
End Noise.
