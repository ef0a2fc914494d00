(** Model of all ciphertext operations of a mkckks Evaluator as sequences of steps, for Evaluators that several goroutines call (mkckks/evaluator.go:117-198, 200-351, 416-443, 465-617,
    mkrlwe/keyswitch.go:49-73, mkrlwe/keyswitch_hoisted.go:10-179).
    What calls can share: the KeySwitcher, the ctxtPool and the polyQPool of their Evaluator and the decomposition buffers HoistPool of the RelinearizationKeySet that is used with it ([world], EvalPool.v).
    Ciphertexts, plaintexts, keys, parameters and the CRS are only read; the output ciphertext is new.
    Simplifications: as in EvShare.v a step is atomic and is one operation on one of the shared buffers (one Decompose, one ExternalProduct, one Lvl operation, one pass over the digits of a switching key,
    one component of MultByConst); a schedule of these steps is also one of the finer interleavings of a real run.  A panic ends its own goroutine and leaves the buffers as they were before the step.
    MulRelinNew's test op0 == op1 is the argument [same], as in EvalPool.v. *)
From Flocq Require Import Core BinarySingleNaN.
From Verif Require Import Base IdSetModel KeySetModel NumTheory Negacyclic Ntt Word FloatModel CkksFloat BasisExt Rows RlweModel KeyGenModel Galois CtModel KeySwitchModel CkksModel KsPool EvalPool EvShare.
Open Scope Z_scope.

Section Model.
  Context {N : nat}.
  Notation R := (R N).
  Notation ct := (ctT N).
  Notation proc := (proc (world N)).
  Implicit Types (pp : rparams) (w : world N).
  Definition setK w (s : kst N) : world N := W s (wev w) (wrs w) (wh0 w) (wh1 w).
  Definition setV w (e : evalst N) : world N := W (wks w) e (wrs w) (wh0 w) (wh1 w).
  Definition setH (second : bool) w (h : hoisted N) : world N := if second then W (wks w) (wev w) (wrs w) (wh0 w) h else W (wks w) (wev w) (wrs w) h (wh1 w).
  Definition hpool (second : bool) w : hoisted N := if second then wh1 w else wh0 w.
  (** a step on the KeySwitcher; a write to one of its buffers; a step on the Evaluator's pools *)
  Definition kact {A} (f : world N -> res (kst N * A)) : proc A := act (fun w => '(s, a) <- f w ;; Ok (setK w s, a)).
  Definition kset (f : kst N -> kst N) : proc unit := kact (fun w => Ok (f (wks w), tt)).
  Definition vact {A} (f : evalst N -> res (evalst N * A)) : proc A := act (fun w => '(e, a) <- f (wev w) ;; Ok (setV w e, a)).
  (** the calls of EvShare.v, which use the KeySwitcher only *)
  Fixpoint liftK {A} (p : EvShare.proc (kst N) A) : proc A :=
    match p with Ret a => Ret a | Fail => Fail | Atom f => Atom (fun w => let '(s, p') := f (wks w) in (setK w s, liftK p')) end.

  (** keyswitch_hoisted.go:72-117: one of the vectors x, y; the digits are read when they are used *)
  Definition vecP pp level (get : kst N -> swk N) (set : kst N -> swk N -> kst N) (sel : relinKey N -> swk N) (hs : world N -> hoisted N) (l : list string) : proc unit :=
    _ <~ pfold (fun (_ : unit) id => kact (fun w =>
            ds <- hget (hs w) id ;;
            k <- rlk_get (wrs w) id ;;
            x <- updPre (beta pp level) (fun i o => kk <- idx (sel k) i ;; d <- idx ds i ;; Ok (wrQP pp level (lvl3 pp level r_mont_add kk d o) o)) (get (wks w)) ;;
            Ok (set (wks w) x, tt))) l tt ;;
    kact (fun w => x <- updPre (beta pp level) (fun _ o => Ok (wrQP pp level (lvl1 pp level r_mform o) o)) (get (wks w)) ;; Ok (set (wks w) x, tt)).
  (** keyswitch_hoisted.go:119-144 *)
  Definition prodP pp level (o : order) (op0 op1 : ct) (ids0 ids1 : idset) (out : ct) : proc ct :=
    a0 <~ pres (cgetL op0 id0 level) ;;
    _ <~ kset (fun st => setq0 st (wrP level (lvlQ1 pp level ntt (prows a0)) (kq0 st))) ;;
    b0 <~ pres (cgetL op1 id0 level) ;;
    _ <~ kset (fun st => setq1 st (wrP level (lvlQ1 pp level ntt (prows b0)) (kq1 st))) ;;
    _ <~ kset (fun st => setq0 st (wrP level (lvlQ1 pp level r_mform (prows (kq0 st))) (kq0 st))) ;;
    out <~ kact (fun w => c <- cwr out id0 (lvlQ2 pp level r_mont (prows (kq0 (wks w))) (prows (kq1 (wks w)))) ;; Ok (wks w, c)) ;;
    _ <~ kset (fun st => setq1 st (wrP level (lvlQ1 pp level r_mform (prows (kq1 st))) (kq1 st))) ;;
    out <~ pfold (fun c id =>
        p <~ pres (cgetL op0 id level) ;;
        _ <~ kset (fun st => setq2 st (wrP level (lvlQ1 pp level ntt (prows p)) (kq2 st))) ;;
        kact (fun w => c <- cwr c id (lvlQ2 pp level r_mont (prows (kq1 (wks w))) (prows (kq2 (wks w)))) ;; Ok (wks w, c))) (o 4%nat (keys ids0)) out ;;
    out <~ pfold (fun c id =>
        p <~ pres (cgetL op1 id level) ;;
        _ <~ kset (fun st => setq2 st (wrP level (lvlQ1 pp level ntt (prows p)) (kq2 st))) ;;
        kact (fun w => c <- (if is_has ids0 id
              then q <- cget c id ;; cwr c id (lvlQ3 pp level r_mont_add (prows (kq0 (wks w))) (prows (kq2 (wks w))) (prows q))
              else cwr c id (lvlQ2 pp level r_mont (prows (kq0 (wks w))) (prows (kq2 (wks w))))) ;; Ok (wks w, c))) (o 5%nat (keys ids1)) out ;;
    pres (rfold (fun c id => q <- cget c id ;; cwr c id (lvlQ1 pp level intt (prows q))) (o 6%nat (keys out)) out).
  (** keyswitch_hoisted.go:146-154 *)
  Definition xP pp level (o : order) (hs1 : world N -> hoisted N) (ids1 : idset) (out : ct) : proc ct :=
    pfold (fun c id =>
        _ <~ kact (fun w => d <- hget (hs1 w) id ;; '(st, e) <- ExtHSt pp level (wks w) d (ks1 (wks w)) ;; Ok (setq0 st (wrP level e (kq0 st)), tt)) ;;
        q <~ pres (cget c id) ;;
        kact (fun w => c <- cwr c id (lvlQ2 pp level r_add (prows q) (prows (kq0 (wks w)))) ;; Ok (wks w, c))) (o 7%nat (keys ids1)) out.
  (** keyswitch_hoisted.go:159-178 *)
  Definition vhP pp level (o : order) (crs : crsT N) (hs0 : world N -> hoisted N) (ids0 : idset) (out : ct) : proc ct :=
    pfold (fun c id =>
        k <~ kact (fun w => k <- rlk_get (wrs w) id ;; Ok (wks w, k)) ;;
        _ <~ kact (fun w => d <- hget (hs0 w) id ;; '(st, e) <- ExtHSt pp level (wks w) d (ks2 (wks w)) ;; Ok (setq0 st (wrP level e (kq0 st)), tt)) ;;
        _ <~ kact (fun w => '(st, dw) <- DecSt pp level (wks w) (kq0 (wks w)) (ks3 (wks w)) ;; Ok (sets3 st dw, tt)) ;;
        _ <~ kact (fun w => '(st, ev) <- ExtHSt pp level (wks w) (ks3 (wks w)) (rlk_v k) ;; Ok (setq1 st (wrP level ev (kq1 st)), tt)) ;;
        q0 <~ pres (cget c id0) ;;
        c <~ kact (fun w => c <- cwr c id0 (lvlQ2 pp level r_add (prows q0) (prows (kq1 (wks w)))) ;; Ok (wks w, c)) ;;
        u <~ pres (crs_get crs (-1)) ;;
        _ <~ kact (fun w => '(st, eu) <- ExtHSt pp level (wks w) (ks3 (wks w)) u ;; Ok (setq2 st (wrP level eu (kq2 st)), tt)) ;;
        q <~ pres (cget c id) ;;
        kact (fun w => c <- cwr c id (lvlQ2 pp level r_add (prows q) (prows (kq2 (wks w)))) ;; Ok (wks w, c))) (o 8%nat (keys ids0)) out.
  (** keyswitch_hoisted.go:44-179 *)
  Definition MulP pp (o : order) (crs : crsT N) (op0 op1 : ct) (hs0 hs1 : world N -> hoisted N) (out : ct) : proc ct :=
    level <~ pres (ctLevel out) ;;
    l0 <~ pres (ctLevel op0) ;;
    if (l0 <? level)%nat then Fail else
    ids0 <~ pres (IDSetOf (o 0%nat) op0) ;;
    ids1 <~ pres (IDSetOf (o 1%nat) op1) ;;
    _ <~ kact (fun w => x <- zeroSt pp level (ks1 (wks w)) ;; Ok (sets1 (wks w) x, tt)) ;;
    _ <~ kact (fun w => y <- zeroSt pp level (ks2 (wks w)) ;; Ok (sets2 (wks w) y, tt)) ;;
    _ <~ vecP pp level ks1 sets1 rlk_d hs0 (o 2%nat (keys ids0)) ;;
    _ <~ vecP pp level ks2 sets2 rlk_b hs1 (o 3%nat (keys ids1)) ;;
    out <~ prodP pp level o op0 op1 ids0 ids1 out ;;
    out <~ xP pp level o hs1 ids1 out ;;
    vhP pp level o crs hs0 ids0 out.
  (** evaluator.go:558-581 *)
  Definition MulRelinHoistedNewP pp (o : order) (crs : crsT N) (pscale : f64) (c0 c1 : ckct N) (hs0 hs1 : world N -> hoisted N) : proc (ckct N) :=
    out <~ pres (newCiphertextBinary o c0 c1) ;;
    let out := CK (cv out) f_zero in
    l0 <~ pres (ctLevel (cv c0)) ;;
    l1 <~ pres (ctLevel (cv c1)) ;;
    lo <~ pres (ctLevel (cv out)) ;;
    let level := Nat.min (Nat.min l0 l1) lo in
    out <~ pres (if (level <? lo)%nat then DropLevel pp (o 40%nat) out (lo - level) else Ok out) ;;
    v <~ MulP pp o crs (cv c0) (cv c1) hs0 hs1 (cv out) ;;
    pres ('(out, _) <- Rescale pp (o 41%nat) (CK v (f_mul (csc c0) (csc c1))) pscale None ;; Ok out).
  (** evaluator.go:421-423, 432-438 *)
  Definition hoistP pp (o : list string -> list string) (second : bool) (c : ckct N) (ids : idset) : proc unit :=
    level <~ pres (ctLevel (cv c)) ;;
    pfold (fun (_ : unit) id =>
        p <~ pres (cgetL (cv c) id level) ;;
        act (fun w => b <- hget (hpool second w) id ;; '(st, d) <- DecSt pp level (wks w) p b ;; Ok (setH second (setK w st) (mset seq_dec (hpool second w) id d), tt))) (o (keys ids)) tt.
  (** evaluator.go:416-443 *)
  Definition MulRelinNewP pp (o : order) (crs : crsT N) (pscale : f64) (c0 c1 : ckct N) (same : bool) : proc (ckct N) :=
    ids0 <~ pres (IDSetOf (o 60%nat) (cv c0)) ;;
    if same then
      _ <~ hoistP pp (o 61%nat) false c0 ids0 ;;
      MulRelinHoistedNewP pp o crs pscale c0 c1 (hpool false) (hpool false)
    else
      ids1 <~ pres (IDSetOf (o 62%nat) (cv c1)) ;;
      _ <~ hoistP pp (o 61%nat) false c0 ids0 ;;
      _ <~ hoistP pp (o 63%nat) true c1 ids1 ;;
      MulRelinHoistedNewP pp o crs pscale c0 c1 (hpool false) (hpool true).
  (** evaluator.go:543-553: the digits go to new buffers *)
  Definition HoistedFormP pp (o : order) (c : ckct N) : proc (hoisted N) :=
    ids <~ pres (IDSetOf (o 50%nat) (cv c)) ;;
    level <~ pres (ctLevel (cv c)) ;;
    pfold (fun h id => p <~ pres (cgetL (cv c) id level) ;; kact (fun w => '(st, d) <- DecSt pp level (wks w) p (newSwk pp) ;; Ok (st, mset seq_dec h id d))) (o 51%nat (keys ids)) nil.

  (** evaluator.go:117-198 with the ctxtPool as receiver *)
  Definition multP pp (o : list string -> list string) (c0 : ckct N) (constant : gconst) : proc unit :=
    l0 <~ pres (ctLevel (cv c0)) ;;
    lo <~ vact (fun e => l <- ctLevel (ctxtPool e) ;; Ok (e, l)) ;;
    let level := Nat.min l0 lo in
    let '(cReal, cImag, scale) := getConstAndScale pp level constant in
    cs <~ pres (rmapM (fun i => scaledConsts (N := N) (Qi pp i) cReal cImag scale) (seq 0 (S level))) ;;
    pfold (fun (_ : unit) id =>
           p0 <~ pres (cgetL (cv c0) id level) ;;
           vact (fun e =>
             p1 <- cget (ctxtPool e) id ;;
             rows <- wrLvl level (tab (S level) (fun i => halves_row (Qi pp i) (nth i cs (0, 0)) (row (prows p0) i))) (prows p1) ;;
             Ok (EV (cset (ctxtPool e) id (Pol rows (pntt p1))) (polyQPool e), tt))) (o (keys (cv c0))) tt.
  (** evaluator.go:200-304; [t0], [t1]: whether tmp0, tmp1 is the ctxtPool *)
  Definition evalP pp (o : order) (c0 c1 out : ckct N) (ev : modulus -> R -> R -> R) : proc (ckct N) :=
    ids0 <~ pres (IDSetOf (o 0%nat) (cv c0)) ;;
    ids1 <~ pres (IDSetOf (o 1%nat) (cv c1)) ;;
    ids <~ pres (is_union o 2%nat ids0 ids1) ;;
    _ <~ vact (fun e => pool <- PadCiphertext (fun n => o (10 + n)%nat) (ctxtPool e) ids ;; Ok (EV pool (polyQPool e), tt)) ;;
    l0 <~ pres (ctLevel (cv c0)) ;;
    l1 <~ pres (ctLevel (cv c1)) ;;
    lo <~ pres (ctLevel (cv out)) ;;
    let level := Nat.min (Nat.min l0 l1) lo in
    out <~ pres (if (level <? lo)%nat then DropLevel pp (o 4%nat) out (lo - Nat.min l0 l1) else Ok out) ;;
    let r10 := f_floor (f_div (csc c1) (csc c0)) in
    let r01 := f_floor (f_div (csc c0) (csc c1)) in
    t <~ (if f_gt (csc c1) (csc c0) && f_gt r10 f_one then _ <~ multP pp (o 5%nat) c0 (CFloat r10) ;; Ret (true, false)
          else if f_gt (csc c0) (csc c1) && f_gt r01 f_one then _ <~ multP pp (o 5%nat) c1 (CFloat r01) ;; Ret (false, true)
          else Ret (false, false)) ;;
    let tmp0 e := if fst t then ctxtPool e else cv c0 in
    let tmp1 e := if snd t then ctxtPool e else cv c1 in
    v <~ vact (fun e =>
      a0 <- cgetL (tmp0 e) id0 level ;;
      b0 <- cgetL (tmp1 e) id0 level ;;
      p <- cget (cv out) id0 ;;
      rows <- wrLvl level (lvlQ2 pp level ev (prows a0) (prows b0)) (prows p) ;;
      Ok (e, cset (cv out) id0 (Pol rows (pntt p)))) ;;
    idso <~ pres (IDSetOf (o 6%nat) v) ;;
    v <~ pfold (fun v id => vact (fun e =>
           v <- (p <- cget v id ;;
           if negb (is_has ids0 id) then
             q <- cgetL (tmp1 e) id level ;; rows <- wrLvl level (prows q) (prows p) ;; Ok (cset v id (Pol rows (pntt p)))
           else if negb (is_has ids1 id) then
             q <- cgetL (tmp0 e) id level ;; rows <- wrLvl level (prows q) (prows p) ;; Ok (cset v id (Pol rows (pntt p)))
           else
             a <- cgetL (tmp0 e) id level ;; b <- cgetL (tmp1 e) id level ;;
             rows <- wrLvl level (lvlQ2 pp level ev (prows a) (prows b)) (prows p) ;; Ok (cset v id (Pol rows (pntt p)))) ;;
           Ok (e, v))) (o 7%nat (keys idso)) v ;;
    Ret (CK v (csc out)).
  (** evaluator.go:316-326 *)
  Definition AddNewP pp (o : order) (c0 c1 : ckct N) : proc (ckct N) :=
    out <~ pres (newCiphertextBinary o c0 c1) ;; evalP pp o c0 c1 out r_add.
  (** evaluator.go:329-351: the negations are made on the new ciphertext *)
  Definition SubNewP pp (o : order) (c0 c1 : ckct N) : proc (ckct N) :=
    out <~ pres (newCiphertextBinary o c0 c1) ;;
    out <~ evalP pp o c0 c1 out r_sub ;;
    pres (l0 <- ctLevel (cv c0) ;;
    l1 <- ctLevel (cv c1) ;;
    lo <- ctLevel (cv out) ;;
    let level := Nat.min (Nat.min l0 l1) lo in
    ids0 <- IDSetOf (o 30%nat) (cv c0) ;;
    idso <- IDSetOf (o 31%nat) (cv out) ;;
    v <- rfold (fun v id =>
           if negb (is_has ids0 id)
           then p <- cget v id ;; rows <- wrLvl level (lvlQ1 pp level r_neg (prows p)) (prows p) ;; Ok (cset v id (Pol rows (pntt p)))
           else Ok v) (o 32%nat (keys idso)) (cv out) ;;
    Ok (CK v (csc out))).
  (** evaluator.go:465-481: polyQPool receives the transformed plaintext, is put in Montgomery form, and is read once per component *)
  Definition MulPtxtNewP pp (o : order) (pscale : f64) (c : ckct N) (pt : poly N) (ptScale : f64) : proc (ckct N) :=
    ids <~ pres (IDSetOf (o 0%nat) (cv c)) ;;
    level <~ pres (ctLevel (cv c)) ;;
    let out := ckNew (o 1%nat) ids level (f_mul (csc c) ptScale) in
    if (length (prows pt) <=? level)%nat then Fail else
    _ <~ vact (fun e => q <- wrLvl level (lvlQ1 pp level ntt (prows pt)) (polyQPool e) ;; Ok (EV (ctxtPool e) q, tt)) ;;
    _ <~ vact (fun e => q <- wrLvl level (lvlQ1 pp level r_mform (polyQPool e)) (polyQPool e) ;; Ok (EV (ctxtPool e) q, tt)) ;;
    v <~ pfold (fun v id =>
           p <~ pres (cgetL (cv c) id level) ;;
           q <~ pres (cget v id) ;;
           vact (fun e => Ok (e, cset v id (Pol (lvlQ1 pp level intt (lvlQ2 pp level r_mont (lvlQ1 pp level ntt (prows p)) (polyQPool e))) (pntt q)))))
         (o 2%nat (keys (cv c))) (cv out) ;;
    pres ('(out, _) <- Rescale pp (o 3%nat) (CK v (csc out)) pscale None ;; Ok out).

  (** a goroutine's call; MMulHoisted and MRotHoisted call HoistedForm first *)
  Inductive mcall :=
  | MAdd (c0 c1 : ckct N)
  | MSub (c0 c1 : ckct N)
  | MMulPtxt (c : ckct N) (pt : poly N) (ptScale : f64)
  | MMul (c0 c1 : ckct N) (same : bool)
  | MMulHoisted (c0 c1 : ckct N)
  | MRot (c : ckct N) (k : Z) (rk : rotset N)
  | MRotHoisted (c : ckct N) (k : Z) (rk : rotset N)
  | MConj (c : ckct N) (ck : conjset N).
  Definition mcode pp (crs : crsT N) (pscale : f64) (o : nat -> order) (e : mcall) : proc (ckct N) :=
    match e with
    | MAdd c0 c1 => AddNewP pp (o 0%nat) c0 c1
    | MSub c0 c1 => SubNewP pp (o 0%nat) c0 c1
    | MMulPtxt c pt s => MulPtxtNewP pp (o 0%nat) pscale c pt s
    | MMul c0 c1 same => MulRelinNewP pp (o 0%nat) crs pscale c0 c1 same
    | MMulHoisted c0 c1 =>
        h0 <~ HoistedFormP pp (o 1%nat) c0 ;;
        h1 <~ HoistedFormP pp (o 2%nat) c1 ;;
        MulRelinHoistedNewP pp (o 0%nat) crs pscale c0 c1 (fun _ => h0) (fun _ => h1)
    | MRot c k rk => liftK (RotateNewP pp o crs c k rk)
    | MRotHoisted c k rk => h <~ HoistedFormP pp (o 1%nat) c ;; liftK (RotateHoistedNewP pp o crs c k h rk)
    | MConj c ck => liftK (ConjugateNewP pp (o 0%nat) crs c ck)
    end.

  (** *** two Evaluators that are used with one RelinearizationKeySet (keys.go:54-58: the HoistPool buffers belong to the set) *)
  Record duo := Duo { dA : kst N * evalst N; dB : kst N * evalst N; drs : rlkset N; dh0 : hoisted N; dh1 : hoisted N }.
  Definition viewA (t : duo) : world N := W (fst (dA t)) (snd (dA t)) (drs t) (dh0 t) (dh1 t).
  Definition viewB (t : duo) : world N := W (fst (dB t)) (snd (dB t)) (drs t) (dh0 t) (dh1 t).
  Definition putA (t : duo) (w : world N) : duo := Duo (wks w, wev w) (dB t) (wrs w) (wh0 w) (wh1 w).
  Definition putB (t : duo) (w : world N) : duo := Duo (dA t) (wks w, wev w) (wrs w) (wh0 w) (wh1 w).
End Model.
Arguments mcall : clear implicits.
Arguments duo : clear implicits.
(** a call on a part of a larger state *)
Fixpoint focus {S T A} (get : T -> S) (put : T -> S -> T) (p : proc S A) : proc T A :=
  match p with Ret a => Ret a | Fail => Fail | Atom f => Atom (fun t => let '(s, p') := f (get t) in (put t s, focus get put p')) end.
