(** Client programs over the whole exported interface of the mkckks evaluator, including the calls that write into a ciphertext they are given
    (DropLevel, MultByConst, Rescale).  They run on shared mutable storage (HeapEval.v).
    Specification side: what the program computes on vectors of complex slots, and for every ciphertext the parties, level, scale and error bounds. *)
From Flocq Require Import Core BinarySingleNaN.
From Coq Require Import Reals Lra.
From Verif Require Import Base IdSetModel KeySetModel NumTheory Negacyclic Ntt Word BasisExt Rows RlweModel KeyGenModel Galois CtModel KeySwitchModel SchemeSpec BasisSpec ExtProps Digits RotProofs MulProofs PropsKeySwitch PropsRotate FloatModel CkksFloat FloatProofs CkksModel CkksProofs CkksRescale PropsCkks PropsRescale PropsConst Slots PropsSlots CkksSlots CkksCircuit HeapModel HeapEval.
Open Scope Z_scope.

(** the calls; arguments are numbers of ciphertexts.  GCall: the calls of CkksCircuit.v, which append their result.  GDrop a n: DropLevel(a, n).
    GConst a k b: MultByConst(a, k, b).  GRescale a s b: Rescale(a, s, b).  GMulH, GRotH: HoistedForm of the operands, then MulRelinHoistedNew, RotateHoistedNew *)
Inductive ginstr := GCall (i : kinstr) | GCopy (a : nat) | GDrop (a n : nat) | GConst (a : nat) (k : gconst) (b : nat) | GRescale (a : nat) (s : f64) (b : nat) | GRescaleNew (a : nat) (s : f64)
  | GMulH (a b : nat) | GRotH (a : nat) (k : Z).

(** the program on storage (HeapEval.v); plaintext number p of the client's list is looked up *)
Definition hop_of {N} (pts : list (poly N * f64)) (i : ginstr) : hop N :=
  match i with
  | GCall (KAdd a b) => HAdd a b | GCall (KSub a b) => HSub a b | GCall (KMul a b) => HMul a b | GCall (KRot a k) => HRot a k | GCall (KConj a) => HConj a
  | GCall (KPt a p) => let q := nth p pts (Pol nil false, f_zero) in HPt a (fst q) (snd q)
  | GCall (KDrop a n) => HDropNew a n
  | GCopy a => HCopy a | GDrop a n => HDrop a n | GConst a k b => HConst a k b | GRescale a s b => HRescale a s b | GRescaleNew a s => HRescaleNew a s
  | GMulH a b => HMulH a b | GRotH a k => HRotH a k
  end.

(** *** what it stands for *)
(** the real value of a constant (the rules below exclude constants with an imaginary part, see C29) *)
Definition cval (k : gconst) : Rdefinitions.R := match k with CComplex re _ => B2R re | CFloat x => B2R x | CUint64 z => IZR z | CInt64 z => IZR z | CInt z => IZR z | COther => 0%R end.
Definition gplain (N : nat) (zpts : list slots) (zs : list slots) (i : ginstr) : list slots :=
  let z a := nth a zs zslots in
  match i with
  | GCall i => zs ++ [kplain N zpts i zs]
  | GCopy a => zs ++ [z a]
  | GDrop _ _ => zs
  | GConst a k b => upd zs b (fun q => cscale (cval k) (z a q))
  | GRescale a _ b => upd zs b (z a)
  | GRescaleNew a _ => zs ++ [z a]
  | GMulH a b => zs ++ [fun q => cmul (z a q) (z b q)]
  | GRotH a k => zs ++ [fun q => z a ((q + Z.to_nat (k mod Z.of_nat (N / 2))) mod (N / 2))%nat]
  end.
Definition gplain_run (N : nat) (zpts : list slots) (prog : list ginstr) (zs : list slots) : list slots := fold_left (gplain N zpts) prog zs.

Section Plan.
  Context (N : nat) (pp : rparams) (pscale : f64) (crs : crsT N) (B T : Z).
  Notation NR := (INR N).
  Notation sigma := (fun a => B2R (ksc a)).
  Definition same_parties (a b : kinfo) : Prop := forall x, In x (kids a) <-> In x (kids b).

  (** division by the D of nb moduli, new scale sc *)
  Definition div_info (a : kinfo) (nb : nat) : kinfo :=
    let D := prodl (dropped pp nb (klev a)) in let sc := rscale pp (klev a) (ksc a) nb in let e2 := round2 N T D (length (kids a)) in
    KI (kids a) (klev a - nb) sc ((2 * kM a + e2) / (2 * D)) (kmu a) (keps a + Rabs (sigma a / (IZR D * B2R sc) - 1) * (kmu a + keps a) + NR * IZR e2 / (2 * IZR D * B2R sc)).
  (** multiplication by the integer z *)
  Definition int_info (a : kinfo) (lev : nat) (z : Z) : kinfo := KI (kids a) lev (ksc a) (Z.abs z * kM a) (Rabs (IZR z) * kmu a) (Rabs (IZR z) * keps a).
  (** multiplication by the float x with a fraction, represented as an integer within 1 of rnd(q x), q the modulus of level lev; the scale is multiplied by q; KM bounds that integer *)
  Definition frac_info (a : kinfo) (lev : nat) (x : Rdefinitions.R) (KM : Z) : kinfo :=
    let q := f_of_int (mq (Qi pp lev)) in let sc := f_mul (ksc a) q in
    KI (kids a) lev sc (KM * kM a) (Rabs x * kmu a)
      (Rabs x * keps a + (Rabs (rnd (B2R q * x) * sigma a / B2R sc - x) + sigma a / B2R sc) * (kmu a + keps a)).

  (** [gstep pis ts i ts']: with ciphertexts described by ts (plaintexts by pis), call i is possible and leaves ciphertexts described by ts' *)
  Inductive gstep (pis : list kpinfo) (ts : list kinfo) : ginstr -> list kinfo -> Prop :=
  | gstep_call i t : kstep N pp pscale crs B T pis ts i t -> gstep pis ts (GCall i) (ts ++ [t])
  | gstep_copy a t : nth_error ts a = Some t -> gstep pis ts (GCopy a) (ts ++ [t])
  | gstep_drop a n t : nth_error ts a = Some t -> (n <= klev t)%nat -> gstep pis ts (GDrop a n) (upd ts a (KI (kids t) (klev t - n) (ksc t) (kM t) (kmu t) (keps t)))
  | gstep_int a k b ta tb z : nth_error ts a = Some ta -> nth_error ts b = Some tb -> same_parties ta tb -> (klev tb <= klev ta)%nat -> int_const k z -> Z.abs z < 2 ^ 52 ->
      gstep pis ts (GConst a k b) (upd ts b (int_info ta (klev tb) z))
  | gstep_frac a k b ta tb (x : f64) KM : nth_error ts a = Some ta -> nth_error ts b = Some tb -> same_parties ta tb -> (klev tb <= klev ta)%nat -> k = CFloat x \/ k = CComplex x f_zero ->
      is_finite x = true -> (Rabs (B2R x) < IZR (2 ^ 63))%R -> (forall z, B2R x <> IZR z) ->
      let q := f_of_int (mq (Qi pp (klev tb))) in fpos (f_mul (ksc ta) q) -> (Rabs (rnd (B2R q * B2R x)) + 1 <= IZR KM)%R ->
      gstep pis ts (GConst a k b) (upd ts b (frac_info ta (klev tb) (B2R x) KM))
  | gstep_rescale a s nb t : nth_error ts a = Some t -> (1 <= klev t)%nat -> f_le s f_zero = false -> divisions pp (klev t) (ksc t) (f_div s (f_of_int 2)) nb -> fpos (rscale pp (klev t) (ksc t) nb) ->
      gstep pis ts (GRescale a s a) (upd ts a (div_info t nb))
  | gstep_rescale_into a s b nb ta tb : nth_error ts a = Some ta -> nth_error ts b = Some tb -> a <> b -> same_parties ta tb -> (klev ta - nb <= klev tb)%nat -> (1 <= klev ta)%nat -> f_le s f_zero = false ->
      divisions pp (klev ta) (ksc ta) (f_div s (f_of_int 2)) nb -> (0 < nb)%nat -> fpos (rscale pp (klev ta) (ksc ta) nb) ->
      gstep pis ts (GRescale a s b) (upd ts b (div_info ta nb))
  | gstep_rescale_err a s t : nth_error ts a = Some t -> f_le s f_zero = true \/ klev t = 0%nat -> gstep pis ts (GRescale a s a) ts   (* an error is returned, nothing changes *)
  | gstep_rescale_new a s nb t : nth_error ts a = Some t -> (1 <= klev t)%nat -> f_le s f_zero = false -> divisions pp (klev t) (ksc t) (f_div s (f_of_int 2)) nb -> (0 < nb)%nat -> fpos (rscale pp (klev t) (ksc t) nb) ->
      gstep pis ts (GRescaleNew a s) (ts ++ [div_info t nb])
  | gstep_mulh a b t : kstep N pp pscale crs B T pis ts (KMul a b) t -> gstep pis ts (GMulH a b) (ts ++ [t])
  | gstep_roth a k t : kstep N pp pscale crs B T pis ts (KRot a k) t -> (let q := k mod Z.of_nat (N / 2) in q = 0 \/ mget Z.eq_dec crs q <> None) -> gstep pis ts (GRotH a k) (ts ++ [t]).
  Inductive gsteps (pis : list kpinfo) : list kinfo -> list ginstr -> list kinfo -> Prop :=
  | gsteps_nil ts : gsteps pis ts nil ts
  | gsteps_cons ts i ts1 prog ts' : gstep pis ts i ts1 -> gsteps pis ts1 prog ts' -> gsteps pis ts (i :: prog) ts'.
End Plan.
