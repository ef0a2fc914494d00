(** Model of /repo/mkrlwe/basis_extension.go, word by word, for one coefficient column.
    The Go loops process eight coefficients at a time with eight copies of the same straight-line code
    (y0..y7, v[0..7]); the model has one copy and is applied to every coefficient.
    [rows] are the residues p[i][x] of one coefficient x. *)
From Verif Require Import Base NumTheory Word FloatModel.
Open Scope Z_scope.

(** a table lookup s[i] that panics out of range *)
Definition idx {A} (l : list A) (i : nat) : res A := match nth_error l i with Some x => Ok x | None => Panic end.

(** basis_extension.go:24-32 *)
Record modup_params := MUP {
  qoverqiinvqi : list Z;
  qoverqimodp : list (list Z);
  vtimesqmodp : list (list Z) }.

(** basis_extension.go:112-116 and 124-128: acc <- MRed(acc, MForm(Q[j])) for every j <> i *)
Definition star_loop (p : Z) (i : nat) (Q : list Z) (acc : Z) : Z :=
  fold_left (fun acc jq => if (fst jq =? i)%nat then acc
                           else mred acc (mform (snd jq) p (bred_params p)) p (mred_params p))
            (combine (seq 0 (length Q)) Q) acc.

(** basis_extension.go:140-143: Q mod p *)
Definition prod_loop (p : Z) (Q : list Z) : Z :=
  fold_left (fun acc q => mred acc (mform q p (bred_params p)) p (mred_params p)) Q 1.

(** basis_extension.go:146-149: t[0] = 0, t[i] = CRed(t[i-1] + v, p); [n] further entries *)
Fixpoint vlist (n : nat) (v p acc : Z) : list Z :=
  acc :: match n with O => nil | S n' => vlist n' v p (cred (w64 (acc + v)) p) end.

(** basis_extension.go:83-153 *)
Definition basisextenderparameters (Q P : list Z) : modup_params :=
  MUP
    (map (fun iq => let '(i, qi) := iq in
            modexp_mont (star_loop qi i Q (mform 1 qi (bred_params qi))) (qi - 2) qi (mred_params qi) (bred_params qi))
         (combine (seq 0 (length Q)) Q))
    (map (fun pj => map (fun i => mform (star_loop pj i Q 1) pj (bred_params pj)) (seq 0 (length Q))) P)
    (map (fun pj => vlist (length Q) (w64 (pj - prod_loop pj Q)) pj 0) P).

(** basis_extension.go:34-54: params[j][i], j over ringP, i over ringQ (row j uses row j-1) *)
Fixpoint gen_mod_down (Q P : list Z) (prev : option (list Z)) : list (list Z) :=
  match P with
  | nil => nil
  | pj :: P' =>
    let row := map (fun iq => let '(i, qi) := iq in
                      let x := mform (mod_exp pj (qi - 2) qi) qi (bred_params qi) in
                      match prev with
                      | None => x
                      | Some r => mred x (nth i r 0) qi (mred_params qi)
                      end) (combine (seq 0 (length Q)) Q) in
    row :: gen_mod_down Q P' (Some row)
  end.
Definition genModDownParams (Q P : list Z) : list (list Z) := gen_mod_down Q P None.

(** basis_extension.go:543-578: y[i] = MRed(p[i][x], qoverqiinvqi[i]); v = uint64(sum float64(y[i])/float64(q[i])).
    The y arrays are [32]uint64: a 33rd modulus panics. *)
Definition recon_y (rows Q inv : list Z) : list Z :=
  map (fun i => mred (nth i rows 0) (nth i inv 0) (nth i Q 0) (mred_params (nth i Q 0))) (seq 0 (length rows)).
Definition reconstructRNS (rows Q inv : list Z) : res (list Z * Z) :=
  if (32 <? length rows)%nat then Panic
  else let y := recon_y rows Q inv in Ok (y, f_quot (combine y Q)).

(** basis_extension.go:582-646: 128-bit accumulation, one lazy Montgomery reduction *)
Definition ms_step (acc : Z * Z) (ym : Z * Z) : Z * Z :=
  let '(rlo, rhi) := acc in let '(y, m) := ym in
  (add_lo rlo (mul_lo y m), w64 (rhi + w64 (mul_hi y m + add_carry rlo (mul_lo y m)))).
Definition multSum (y : list Z) (v pj : Z) (vtimes qoverqi : list Z) : res Z :=
  let '(rlo, rhi) := fold_left ms_step (combine y qoverqi) (0, 0) in
  let hhi := mul_hi (w64 (rlo * mred_params pj)) pj in
  t <- idx vtimes (Z.to_nat v) ;;
  Ok (w64 (rhi - hhi + pj + t)).

Fixpoint rmapM {A B} (f : A -> res B) (l : list A) : res (list B) :=
  match l with
  | nil => Ok nil
  | x :: t => y <- f x ;; ys <- rmapM f t ;; Ok (y :: ys)
  end.

(** basis_extension.go:337-357 *)
Definition modUpExact (rows Q P : list Z) (params : modup_params) : res (list Z) :=
  '(y, v) <- reconstructRNS rows Q (qoverqiinvqi params) ;;
  rmapM (fun jp => let '(j, pj) := jp in
           vt <- idx (vtimesqmodp params) j ;;
           qo <- idx (qoverqimodp params) j ;;
           multSum y v pj vt qo) (combine (seq 0 (length P)) P).

(** basis_extension.go:64-67 (and 69-72 with the roles exchanged): row i of the table is built from the first i+1 moduli *)
Definition params_table (Q P : list Z) : list modup_params :=
  map (fun i => basisextenderparameters (firstn (S i) Q) P) (seq 0 (length Q)).

(** basis_extension.go:177-186: ModUpQtoP(levelQ, levelP); ModUpPtoQ is the same with Q and P exchanged.
    [Q], [P] are all the moduli of the two rings, [rows] the residues modulo the first levelQ+1 moduli of Q. *)
Definition ModUp (Q P : list Z) (levelQ levelP : nat) (rows : list Z) : res (list Z) :=
  params <- idx (params_table Q P) levelQ ;;
  modUpExact (firstn (S levelQ) rows) Q (firstn (S levelP) P) params.

(** basis_extension.go:205-221: one output of the division *)
Definition md_out (qi x y md : Z) : Z :=
  mred (w64 (w64 (y + w64 (qi * 2)) - x)) (w64 (qi - md)) qi (mred_params qi).

(** basis_extension.go:192-232 *)
Definition ModDownQPtoQ (Q P : list Z) (levelQ levelP : nat) (rowsQ rowsP : list Z) : res (list Z) :=
  pool <- ModUp P Q levelP levelQ rowsP ;;
  md <- idx (genModDownParams Q P) levelP ;;
  Ok (map (fun i => md_out (nth i Q 0) (nth i rowsQ 0) (nth i pool 0) (nth i md 0)) (seq 0 (S levelQ))).

(** basis_extension.go:294-334.  Line 312 indexes the constants with levelP (as in ModDownQPtoQ). *)
Definition ModDownQPtoP (Q P : list Z) (levelQ levelP : nat) (rowsQ rowsP : list Z) : res (list Z) :=
  pool <- ModUp Q P levelQ levelP rowsQ ;;
  md <- idx (genModDownParams P Q) levelP ;;
  Ok (map (fun i => md_out (nth i P 0) (nth i rowsP 0) (nth i pool 0) (nth i md 0)) (seq 0 (S levelP))).

(** basis_extension.go:368-424: modUpParams[lvlP][i][j]; the number of digits is computed in floating point *)
Definition decomposer_row (Q P : list Z) (alpha beta i : nat) : list modup_params :=
  let xalpha := if (negb (length Q mod alpha =? 0)%nat && (i =? beta - 1)%nat)%bool then (length Q mod alpha)%nat else alpha in
  map (fun j => basisextenderparameters (firstn (j + 2) (skipn (i * alpha) Q)) (Q ++ P)) (seq 0 (xalpha - 1)).
Definition decomposer_level (Q P : list Z) (gamma : nat) : list (list modup_params) :=
  let alpha := Z.to_nat (f_ceil_div (Z.of_nat (length P)) (Z.of_nat gamma)) in
  let beta := Z.to_nat (f_ceil_div (Z.of_nat (length Q)) (Z.of_nat alpha)) in
  map (decomposer_row Q P alpha beta) (seq 0 beta).
Definition NewDecomposer (Q P : list Z) (gamma : nat) : list (list (list modup_params)) :=
  map (fun lvlP => decomposer_level Q (firstn (lvlP + 2) P) gamma) (seq 0 (length P - 1)).

(** basis_extension.go:428-535, digit number [beta]: residues of the digit modulo Q_0..Q_levelQ and P_0..P_levelP.
    Lines 520-527 recompute every row, also the rows copied at line 487. *)
Definition decomp_lvl (levelQ alpha beta : nat) : Z :=
  if (alpha * (beta + 1) - 1 <? levelQ)%nat then Z.of_nat alpha - 2 else Z.of_nat (levelQ mod alpha) - 1.
Definition DecomposeAndSplit (tab : list (list (list modup_params))) (Q P : list Z)
    (levelQ levelP alpha beta gamma : nat) (rows : list Z) : res (list Z * list Z) :=
  let start := (beta * alpha)%nat in
  let dl := decomp_lvl levelQ alpha beta in
  if dl =? -1 then
    x <- idx rows start ;;
    Ok (repeat x (S levelQ), repeat x (S levelP))
  else
    t1 <- idx tab (gamma * alpha - 2) ;;
    t2 <- idx t1 beta ;;
    params <- idx t2 (Z.to_nat dl) ;;
    let k := (Z.to_nat dl + 2)%nat in
    '(y, v) <- reconstructRNS (firstn k (skipn start rows)) (firstn k (skipn start Q)) (qoverqiinvqi params) ;;
    outQ <- rmapM (fun j => vt <- idx (vtimesqmodp params) j ;; qo <- idx (qoverqimodp params) j ;;
                     multSum y v (nth j Q 0) vt qo) (seq 0 (S levelQ)) ;;
    outP <- rmapM (fun j => vt <- idx (vtimesqmodp params) (length Q + j) ;; qo <- idx (qoverqimodp params) (length Q + j) ;;
                     multSum y v (nth j P 0) vt qo) (seq 0 (S levelP)) ;;
    Ok (outQ, outP).
