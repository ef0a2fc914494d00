(** Model of mkrlwe/keygen.go and of the CRS of mkrlwe/params.go.
    A sampler call (ring.GaussianSampler / TernarySampler / UniformSampler, a dependency) is an input: the rows it wrote. *)
From Verif Require Import Base NumTheory Negacyclic Ntt Word BasisExt Rows RlweModel.
Open Scope Z_scope.

(** lattigo rlwe.Parameters: GaloisElementForColumnRotationBy, InverseGaloisElement, GaloisElementForRowRotation *)
Definition galEl (N : nat) (k : Z) : Z := powm (2 * Z.of_nat N) 5 (k mod (2 * Z.of_nat N)).
Definition invGalEl (N : nat) (g : Z) : Z := powm (2 * Z.of_nat N) g (2 * Z.of_nat N - 1).
Definition conjEl (N : nat) : Z := 2 * Z.of_nat N - 1.

(** keygen.go:208-210, keyswitch.go:247-249, keyswitch_hoisted.go:196-198: for rotidx < 0 { rotidx += N/2 }.
    [Panic] stands for the endless loop when N/2 = 0. *)
Fixpoint norm_loop (fuel : nat) (half k : Z) : res Z :=
  if k <? 0 then match fuel with O => Panic | S f => norm_loop f half (k + half) end else Ok k.
Definition norm_rot (N : nat) (k : Z) : res Z := norm_loop (Z.to_nat (- k)) (Z.of_nat (N / 2)) k.

Section Model.
  Context {N : nat}.
  Notation R := (R N).
  Implicit Types (pp : rparams).

  (** params.go:10 CRS map[int]*SwitchingKey *)
  Definition crsT := gomap Z (swk N).
  Definition crs_get (c : crsT) (i : Z) : res (swk N) := match mget Z.eq_dec c i with Some x => Ok x | None => Panic end.
  (** params.go:37-46 *)
  Definition crs_indices (logN : nat) : list Z := [0; -1; -2; -3; -4] ++ map (fun i => 2 ^ Z.of_nat i) (seq 0 (logN - 1)).
  (** params.go:49-58 and 89-98: [u idx i] is what the uniform samplers wrote for digit i of index idx *)
  Definition crs_entry pp (u : nat -> polyQP N) : swk N := tab (beta pp (maxLevel pp)) (fun i => lvl1 pp (maxLevel pp) r_mform (u i)).
  Definition NewCRS pp (logN : nat) (u : Z -> nat -> polyQP N) : crsT :=
    fold_left (fun c i => mset Z.eq_dec c i (crs_entry pp (u i))) (crs_indices logN) nil.
  (** params.go:77-99 *)
  Definition AddCRS pp (c : crsT) (i : Z) (u : nat -> polyQP N) : crsT := mset Z.eq_dec c i (crs_entry pp u).

  (** keys.go:6-9, 17-20, 34-50 *)
  Record secretKey := SK { sk_id : string; sk_val : polyQP N }.
  Record publicKey := PK { pk_id : string; pk0 : polyQP N; pk1 : polyQP N }.
  Record relinKey := RLK { rlk_id : string; rlk_b : swk N; rlk_d : swk N; rlk_v : swk N }.
  Record rotKey := RTK { rtk_id : string; rtk_idx : Z; rtk_val : swk N }.
  Record conjKey := CJK { cjk_id : string; cjk_val : swk N }.

  (** lattigo ringqp ExtendBasisSmallNormAndCenter: the centred value of the residue modulo q_0, modulo p *)
  Definition ext_small (q0 p c : Z) : Z := if q0 / 2 <? c then w64 (p - w64 (q0 - c)) else c.
  Definition extP pp (smp : list R) : polyQP N :=
    QP smp (tab (length (Pm pp)) (fun k => mkR (fun i => ext_small (mq (Qi pp 0)) (mq (Pi pp k)) (co (row smp 0) i)))).

  (** keygen.go:123-133 *)
  Definition GenGaussianError pp (smp : list R) : polyQP N := lvl1 pp (maxLevel pp) ntt (extP pp smp).
  (** keygen.go:44-55 *)
  Definition genSecretKeyFromSampler pp (id : string) (smp : list R) : secretKey :=
    SK id (lvl1 pp (maxLevel pp) r_mform (lvl1 pp (maxLevel pp) ntt (extP pp smp))).

  (** keygen.go:88-109 *)
  Definition GenPublicKey pp (crs : crsT) (sk : secretKey) (smp : list R) : res publicKey :=
    c <- crs_get crs 0 ;;
    a <- idx c 0 ;;
    Ok (PK (sk_id sk) (lvl3 pp (maxLevel pp) r_mont_sub (sk_val sk) a (GenGaussianError pp smp)) a).

  (** lattigo ring.MulScalarBigintLvl on one row *)
  Definition r_scal (m : modulus) (z : Z) (a : R) : R :=
    mkR (fun i => mred (co a i) (mform (z mod mq m) (mq m) (bred_params (mq m))) (mq m) (mred_params (mq m))).

  (** keygen.go:270-327.  Line 313 cuts the last block at levelQ (the table has no further rows). *)
  Definition GenSwitchingKey pp (skIn : polyQP N) (smp : nat -> list R) : swk N :=
    tab (beta pp (maxLevel pp)) (fun i =>
      let e := lvl1 pp (maxLevel pp) r_mform (GenGaussianError pp (smp i)) in
      QP (tab (S (maxLevel pp)) (fun j =>
            if ((i * alpha pp <=? j) && (j <? i * alpha pp + alpha pp))%nat
            then r_add (Qi pp j) (row (qpQ e) j) (r_scal (Qi pp j) (Pprod pp) (row (qpQ skIn) j))
            else row (qpQ e) j))
         (qpP e)).

  (** "for i < beta { f(a.Value[i], ..., x.Value[i]) }" *)
  Definition swk_zip pp (f : polyQP N -> polyQP N -> polyQP N) (a x : swk N) : res (swk N) :=
    rmapM (fun i => ai <- idx a i ;; xi <- idx x i ;; Ok (f ai xi)) (seq 0 (beta pp (maxLevel pp))).

  (** keygen.go:137-187 *)
  Definition GenRelinearizationKey pp (crs : crsT) (sk r : secretKey) (eb ed ev : nat -> list R) : res relinKey :=
    let L := maxLevel pp in
    if (length (Pm pp) =? 0)%nat then Panic else
    a <- crs_get crs 0 ;;
    u <- crs_get crs (-1) ;;
    b <- rmapM (fun i => ai <- idx a i ;;
           Ok (lvl1 pp L r_mform (lvl2 pp L r_sub (GenGaussianError pp (eb i))
                 (lvl1 pp L r_invmform (lvl2 pp L r_mont ai (sk_val sk)))))) (seq 0 (beta pp L)) ;;
    d <- swk_zip pp (fun ai di => lvl3 pp L r_mont_sub ai (sk_val r) di) a (GenSwitchingKey pp (sk_val sk) ed) ;;
    v <- swk_zip pp (fun ui vi => lvl1 pp L r_neg (lvl3 pp L r_mont_add ui (sk_val sk) vi)) u (GenSwitchingKey pp (sk_val r) ev) ;;
    Ok (RLK (sk_id sk) b d v).

  (** ring.PermuteNTTWithIndexLvl with ring.PermuteNTTIndex(galEl, N) *)
  Definition permQP pp (g : Z) (x : polyQP N) : polyQP N := lvl1 pp (maxLevel pp) (fun _ a => perm_ntt g a) x.

  (** keygen.go:190-229 *)
  Definition GenRotationKey pp (crs : crsT) (rotidx : Z) (sk : secretKey) (smp : nat -> list R) : res rotKey :=
    let L := maxLevel pp in
    _ <- crs_get crs rotidx ;;
    k <- norm_rot N rotidx ;;
    let skOut := permQP pp (invGalEl N (galEl N k)) (sk_val sk) in
    a <- crs_get crs k ;;
    v <- swk_zip pp (fun ai ki => lvl3 pp L r_mont_sub ai skOut ki) a (GenSwitchingKey pp (sk_val sk) smp) ;;
    Ok (RTK (sk_id sk) k v).

  (** keygen.go:240-267 *)
  Definition GenConjugationKey pp (crs : crsT) (sk : secretKey) (smp : nat -> list R) : res conjKey :=
    let L := maxLevel pp in
    let skOut := permQP pp (conjEl N) (sk_val sk) in
    a <- crs_get crs (-2) ;;
    v <- swk_zip pp (fun ai ki => lvl3 pp L r_mont_sub ai (sk_val sk) ki) a (GenSwitchingKey pp skOut smp) ;;
    Ok (CJK (sk_id sk) v).
End Model.
Arguments crsT : clear implicits.
Arguments secretKey : clear implicits.
Arguments publicKey : clear implicits.
Arguments relinKey : clear implicits.
Arguments rotKey : clear implicits.
Arguments conjKey : clear implicits.
