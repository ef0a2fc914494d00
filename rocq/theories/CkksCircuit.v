(** Client programs over the mkckks evaluator: straight-line sequences of the exported operations (mkckks/evaluator.go), every result in a new register.
    Specification side: what the same program computes on vectors of N/2 complex slots, and for every register the parties it depends on, its level, its scale
    and its error bounds. *)
From Flocq Require Import Core BinarySingleNaN.
From Coq Require Import Reals Lra.
From Verif Require Import Base IdSetModel KeySetModel NumTheory Negacyclic Ntt Word BasisExt Rows RlweModel KeyGenModel Galois CtModel KeySwitchModel SchemeSpec BasisSpec ExtProps Digits RotProofs MulProofs PropsKeySwitch PropsRotate FloatModel CkksFloat CkksModel CkksProofs CkksRescale PropsCkks PropsRescale Slots PropsSlots CkksSlots.
Open Scope Z_scope.

(** one call of the evaluator; operands are register numbers; KPt multiplies by plaintext number p of the client's list *)
Inductive kinstr := KAdd (i j : nat) | KSub (i j : nat) | KMul (i j : nat) | KRot (i : nat) (k : Z) | KConj (i : nat) | KPt (i p : nat) | KDrop (i n : nat).

Section Model.
  Context {N : nat} (pp : rparams) (pscale : f64) (crs : crsT N) (rs : rlkset N) (rk : rotset N) (ck : conjset N).
  Notation ct := (ckct N).
  Variable pts : list (poly N * f64).

  (** AddNew, SubNew, MulRelinNew, RotateNew, ConjugateNew, MulPtxtNew, DropLevelNew: mkckks/evaluator.go:322, 329, 416, 485, 530, 465, 98;
      the evaluator's scratch pools are threaded through; MulRelinNew tests whether its operands are one object *)
  Definition kcall (o : nat -> order) (st : evalst N) (regs : list ct) (i : kinstr) : res (evalst N * ct) :=
    match i with
    | KAdd i j => x <- idx regs i ;; y <- idx regs j ;; AddNew pp (o 0%nat) st x y
    | KSub i j => x <- idx regs i ;; y <- idx regs j ;; SubNew pp (o 0%nat) st x y
    | KMul i j => x <- idx regs i ;; y <- idx regs j ;; c <- MulRelinNew pp (o 0%nat) crs pscale x y (i =? j)%nat rs ;; Ok (st, c)
    | KRot i k => x <- idx regs i ;; c <- RotateNew pp o crs x k rk ;; Ok (st, c)
    | KConj i => x <- idx regs i ;; c <- ConjugateNew pp (o 0%nat) crs x ck ;; Ok (st, c)
    | KPt i p => x <- idx regs i ;; q <- idx pts p ;; MulPtxtNew pp (o 0%nat) pscale st x (fst q) (snd q)
    | KDrop i n => x <- idx regs i ;; c <- DropLevelNew pp (o 0%nat) x n ;; Ok (st, c)
    end.
  (** a client program; [w n] gives the iteration orders of the maps during call number n *)
  Fixpoint krun (w : nat -> nat -> order) (n : nat) (prog : list kinstr) (st : evalst N) (regs : list ct) : res (evalst N * list ct) :=
    match prog with
    | nil => Ok (st, regs)
    | i :: prog => '(st, c) <- kcall (w n) st regs i ;; krun w (S n) prog st (regs ++ [c])
    end.
End Model.

(** *** what it stands for: vectors of complex slots (only the first N/2 entries matter) *)
Notation slots := (nat -> CC).
Definition zslots : slots := fun _ => (0%R, 0%R).
Definition kplain (N : nat) (zpts : list slots) (i : kinstr) (zs : list slots) : slots :=
  let z a := nth a zs zslots in
  match i with
  | KAdd i j => fun q => cadd (z i q) (z j q)
  | KSub i j => fun q => csub (z i q) (z j q)
  | KMul i j => fun q => cmul (z i q) (z j q)
  | KRot i k => fun q => z i ((q + Z.to_nat (k mod Z.of_nat (N / 2))) mod (N / 2))%nat
  | KConj i => fun q => cconj (z i q)
  | KPt i p => fun q => cmul (nth p zpts zslots q) (z i q)
  | KDrop i _ => z i
  end.
Definition kplain_run (N : nat) (zpts : list slots) (prog : list kinstr) (zs : list slots) : list slots := fold_left (fun zs i => zs ++ [kplain N zpts i zs]) prog zs.

(** *** registers: parties, level, scale; bound of the plaintext coefficients; bound of the slots of the exact value; bound of the error of the slots *)
Record kinfo := KI { kids : list string; klev : nat; ksc : f64; kM : Z; kmu : Rdefinitions.R; keps : Rdefinitions.R }.
(** plaintexts: scale and the same bounds *)
Record kpinfo := KP { psc : f64; pM : Z; pmu : Rdefinitions.R; peps : Rdefinitions.R }.
Definition fpos (x : f64) : Prop := is_finite x = true /\ (0 < B2R x)%R.

Section Plan.
  Context (N : nat) (pp : rparams) (pscale : f64) (crs : crsT N) (B T : Z).
  Notation NR := (INR N). Notation half := (f_div pscale (f_of_int 2)).
  Notation sigma := (fun a => B2R (ksc a)).

  (** error of an operand of scale s and bounds (mu, eps) that is multiplied by the integer K and declared to have scale sg *)
  Definition aligned (K : Z) (s sg mu eps : Rdefinitions.R) : Rdefinitions.R := (eps + Rabs (IZR K * s / sg - 1) * (mu + eps))%R.
  Definition sum_info (a b : kinfo) : kinfo :=
    let K0 := align_factor (ksc a) (ksc b) in let K1 := align_factor (ksc b) (ksc a) in let sc := f_max (ksc a) (ksc b) in
    KI (nodup string_dec (kids a ++ kids b)) (Nat.min (klev a) (klev b)) sc (K0 * kM a + K1 * kM b) (kmu a + kmu b)
      (aligned K0 (sigma a) (B2R sc) (kmu a) (keps a) + aligned K1 (sigma b) (B2R sc) (kmu b) (keps b)).
  (** product of two values of scales s0, s1, divided by D and declared to have scale sc; e2 bounds twice the noise added before the division *)
  Definition prod_eps (mu0 e0 mu1 e1 : Rdefinitions.R) : Rdefinitions.R := (mu0 * e1 + mu1 * e0 + e0 * e1)%R.
  Definition prod_info ids lev (sc : f64) (s0 s1 : Rdefinitions.R) (D e2 M0 M1 : Z) (mu0 e0 mu1 e1 : Rdefinitions.R) : kinfo :=
    KI ids lev sc ((2 * (Z.of_nat N * M0 * M1) + e2) / (2 * D)) (mu0 * mu1)
      (prod_eps mu0 e0 mu1 e1 + Rabs (s0 * s1 / (IZR D * B2R sc) - 1) * (mu0 * mu1 + prod_eps mu0 e0 mu1 e1) + NR * IZR e2 / (2 * IZR D * B2R sc)).
  (** twice the rounding error of a division by D of a ciphertext of n parties *)
  Definition round2 (D : Z) (n : nat) : Z := (D - 1) * (1 + Z.of_nat n * (Z.of_nat N * T)).
  Definition noisy (a : kinfo) (e : Z) : kinfo := KI (kids a) (klev a) (ksc a) (kM a + e) (kmu a) (keps a + NR * IZR e / sigma a).
  Notation switch lev := (switch_noise N pp lev (dig_bound pp lev) B T).

  (** [kstep pis ts i t]: in a state whose registers are described by [ts] (plaintexts by [pis]), call i is possible and its result is described by t *)
  Inductive kstep (pis : list kpinfo) (ts : list kinfo) : kinstr -> kinfo -> Prop :=
  | kstep_add i j a b : nth_error ts i = Some a -> nth_error ts j = Some b -> okratio (ksc a) (ksc b) -> okratio (ksc b) (ksc a) ->
      kstep pis ts (KAdd i j) (sum_info a b)
  | kstep_sub i j a b : nth_error ts i = Some a -> nth_error ts j = Some b -> okratio (ksc a) (ksc b) -> okratio (ksc b) (ksc a) ->
      kstep pis ts (KSub i j) (sum_info a b)
  | kstep_mul i j a b nb : nth_error ts i = Some a -> nth_error ts j = Some b -> (1 <= klev a)%nat -> (1 <= klev b)%nat ->
      let level := Nat.min (klev a) (klev b) in let scale := f_mul (ksc a) (ksc b) in let D := prodl (dropped pp nb level) in
      let ids := nodup string_dec (kids a ++ kids b) in
      fpos scale -> divisions pp level scale half nb -> fpos (rscale pp level scale nb) ->
      kstep pis ts (KMul i j) (prod_info ids (level - nb) (rscale pp level scale nb) (sigma a) (sigma b) D
        (2 * mul_noise N pp level (length (kids a)) (length (kids b)) (dig_bound pp (klev a)) (dig_bound pp (klev b)) B T + round2 D (length ids))
        (kM a) (kM b) (kmu a) (keps a) (kmu b) (keps b))
  | kstep_rot i k a : nth_error ts i = Some a ->
      kstep pis ts (KRot i k) (noisy a (rot_count crs (k mod Z.of_nat (N / 2)) * (Z.of_nat (length (kids a)) * switch (klev a))))
  | kstep_conj i a : nth_error ts i = Some a -> klev a = maxLevel pp ->
      kstep pis ts (KConj i) (noisy a (Z.of_nat (length (kids a)) * switch (maxLevel pp)))
  | kstep_pt i p a q nb : nth_error ts i = Some a -> nth_error pis p = Some q -> (1 <= klev a)%nat ->
      let scale := f_mul (ksc a) (psc q) in let D := prodl (dropped pp nb (klev a)) in
      fpos scale -> divisions pp (klev a) scale half nb -> fpos (rscale pp (klev a) scale nb) ->
      kstep pis ts (KPt i p) (prod_info (kids a) (klev a - nb) (rscale pp (klev a) scale nb) (B2R (psc q)) (sigma a) D (round2 D (length (kids a)))
        (pM q) (kM a) (pmu q) (peps q) (kmu a) (keps a))
  | kstep_pt0 i p a q : nth_error ts i = Some a -> nth_error pis p = Some q -> klev a = 0%nat -> fpos (f_mul (ksc a) (psc q)) ->
      kstep pis ts (KPt i p) (prod_info (kids a) 0 (f_mul (ksc a) (psc q)) (B2R (psc q)) (sigma a) 1 0 (pM q) (kM a) (pmu q) (peps q) (kmu a) (keps a))
  | kstep_drop i n a : nth_error ts i = Some a -> (n <= klev a)%nat ->
      kstep pis ts (KDrop i n) (KI (kids a) (klev a - n) (ksc a) (kM a) (kmu a) (keps a)).
  Inductive ksteps (pis : list kpinfo) : list kinfo -> list kinstr -> list kinfo -> Prop :=
  | ksteps_nil ts : ksteps pis ts nil ts
  | ksteps_cons ts i t prog ts' : kstep pis ts i t -> ksteps pis (ts ++ [t]) prog ts' -> ksteps pis ts (i :: prog) ts'.
End Plan.
