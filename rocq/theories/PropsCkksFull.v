(** C61: every client program over the whole mkckks evaluator interface (CkksFull.v), run on shared mutable storage (HeapEval.v), computes on the slots what it stands for. *)
From Flocq Require Import Core BinarySingleNaN.
From Coq Require Import Permutation Znumtheory Setoid Morphisms Reals Lra.
From Verif Require Import Base IdSetModel IdSetSpec IdSetProofs KeySetModel NumTheory Negacyclic Ntt Word BasisExt BasisExtProofs DecompProofs BasisSpec Rows RlweModel KeyGenModel SchemeSpec ExtProd ExtProps Galois KeyGenProofs Instance CtModel CtSpec CtProofs EncDecProofs EncMsgModel HeapModel HeapProofs PropsEnc KeySwitchModel Digits KsLoops RotProofs ConjProofs MulProofs PropsKeySwitch PropsRotate FloatModel CkksFloat CkksModel FloatProofs CkksFloatProofs CkksProofs CkksRescale PropsCkks PropsRescale PropsConst PropsMulRelin BfvCross EncFresh Slots PropsSlots CkksSlots SlotNorm CkksCircuit PropsCkksCircuit CkksBudget CkksHoist PropsCkksHoist HeapEval HeapEvalProofs HeapWorld PropsHeap CkksFull.
Open Scope Z_scope.

(** *** slots *)
Section Near.
  Context {N : nat} (NP : (0 < N)%nat).
  Notation P := (Negacyclic.R N).
  (** 2 D m' = 2 m + E *)
  Lemma near_div (D e2 : Z) (m m' E : P) s sg z mu e : (0 < D)%Z -> (0 < s)%R -> (0 < sg)%R -> near m s z mu e -> smul (2 * D) m' = add (smul 2 m) E -> bnd E e2 ->
    near m' sg z mu (e + Rabs (s / (IZR D * sg) - 1) * (mu + e) + INR N * IZR e2 / (2 * IZR D * sg))%R.
  Proof using NP.
    intros PD P0 PS H0 EQ BE j Hj. destruct (H0 j Hj) as [A0 B0]. split; [|exact B0].
    apply IZR_lt in PD. apply (f_equal (fun r => ckks_slot r j)) in EQ. rewrite slot_add, !slot_smul in EQ by exact NP. rewrite mult_IZR in EQ.
    pose proof (slot_bound NP E e2 j BE) as SB. set (y := ckks_slot E j) in *. set (x := ckks_slot m' j) in *. set (x0 := cscale (/ s) (ckks_slot m j)) in *.
    assert (XM : cscale (/ sg) x = cadd (cscale (s / (IZR D * sg)) x0) (cscale (/ (2 * IZR D * sg)) y)).
    { unfold x0. rewrite cscale_comp.
      replace (cscale (/ sg) x) with (cscale (/ (2 * IZR D * sg)) (cscale (2 * IZR D) x)) by (rewrite cscale_comp; f_equal; field; lra).
      rewrite EQ, cscale_cadd, cscale_comp. f_equal. f_equal. field. lra. }
    rewrite XM. set (f := (s / (IZR D * sg))%R).
    replace (csub (cadd (cscale f x0) (cscale (/ (2 * IZR D * sg)) y)) (z j)) with (cadd (csub (cscale f x0) (z j)) (cscale (/ (2 * IZR D * sg)) y)) by (unfold cadd, csub; cbn [fst snd]; f_equal; ring).
    eapply Rle_trans; [apply cabs_add|]. apply Rplus_le_compat; [apply scaled_near; assumption|].
    rewrite cabs_cscale. assert (0 < / (2 * IZR D * sg))%R by (apply Rinv_0_lt_compat; apply Rmult_lt_0_compat; lra). rewrite Rabs_right by lra. unfold Rdiv. rewrite (Rmult_comm (INR N * IZR e2)).
    apply Rmult_le_compat_l; lra.
  Qed.
  (** K m with scale sg stands for x z *)
  Lemma near_const (K : Z) (x : Rdefinitions.R) (m : P) s sg z mu e : (0 < s)%R -> (0 < sg)%R -> near m s z mu e ->
    near (smul K m) sg (fun j => cscale x (z j)) (Rabs x * mu) (Rabs x * e + Rabs (IZR K * s / sg - x) * (mu + e))%R.
  Proof using NP.
    intros P0 PS H j Hj. destruct (H j Hj) as [A B]. split.
    - rewrite slot_smul by exact NP. rewrite cscale_comp. replace (/ sg * IZR K)%R with (IZR K * s / sg * / s)%R by (field; lra). rewrite <- (cscale_comp _ (/ _)).
      set (y := cscale (/ s) (ckks_slot m j)) in *. set (f := (IZR K * s / sg)%R).
      replace (csub (cscale f y) (cscale x (z j))) with (cadd (cscale x (csub y (z j))) (cscale (f - x) y)) by (destruct y, (z j); unfold cadd, csub, cscale; cbn [fst snd]; f_equal; ring).
      eapply Rle_trans; [apply cabs_add|]. rewrite !cabs_cscale. apply Rplus_le_compat; apply Rmult_le_compat_l; try apply Rabs_pos; [exact A|]. apply (cabs_near y (z j)); assumption.
    - rewrite cabs_cscale. apply Rmult_le_compat_l; [apply Rabs_pos|exact B].
  Qed.
End Near.

Lemma nth_error_upd {A} (l : list A) : forall b x a, nth_error (upd l b x) a = if (a =? b)%nat then (match nth_error l b with Some _ => Some x | None => None end) else nth_error l a.
Proof. induction l as [|y l IH]; intros [|b] x [|a]; cbn [upd nth_error Nat.eqb]; try reflexivity. - destruct (a =? b)%nat; reflexivity. - apply IH. Qed.

Section Rescale.
  Context {N : nat} (pp : rparams) (WF : wfp N pp).
  (** Rescale into a ciphertext with the same parties that has room for the result *)
  Lemma Rescale_into (o : list string -> list string) (c d : ckct N) minScale level ld nb : ord1_ok o -> (1 <= level < length (Qm pp))%nat -> wfct pp level false (cv c) -> wfct pp ld false (cv d) ->
    f_le minScale f_zero = false -> f_eq (csc c) f_zero = false -> divisions pp level (csc c) (f_div minScale (f_of_int 2)) nb -> (0 < nb)%nat -> (level - nb <= ld)%nat ->
    (forall x, In x (keys (cv d)) <-> In x (keys (cv c))) ->
    exists v, Rescale pp o c minScale (Some d) = Ok (CK v (rscale pp level (csc c) nb), false) /\ wfct pp (level - nb) false v /\ (forall x, In x (keys v) <-> In x (keys (cv c))) /\
      forall s T m, (forall x, In x (parties (cv c)) -> bnd (s x) T) -> decrypts pp s (cv c) level m ->
        exists m', rescaled (prodl (dropped pp nb level)) (length (parties (cv c))) T m m' /\ decrypts pp s v (level - nb) m'.
  Proof using WF.
    intros O HL W WD M1 M2 DV Hnb HLD KD. apply div_count in DV. unfold Rescale. rewrite M1, M2, (wfct_level pp _ _ _ W). cbn [rbind]. destruct (Nat.eqb_spec level 0); [lia|].
    rewrite (rescLoop_ok _ _ _ _ _ DV). cbn [rbind]. destruct (Nat.ltb_spec 0 nb) as [_|X]; [|lia]. assert (NB : (nb <= level < length (Qm pp))%nat) by (destruct DV; lia).
    destruct (loop1 (fun v id => p <- cgetL (cv c) id level ;; q <- cget v id ;;
           (if (length (prows q) <? S level - nb)%nat then Panic else Ok (cset v id (Pol (divRoundMany pp nb level (prows p)) (pntt q)))))
       (fun x p => divMany pp nb level (comp (cv c) x)) (o (keys (cv d))) (cv d)) as (v & V1 & V2 & V3 & V4).
    - apply (Permutation_NoDup (Permutation_sym (O _))). apply WD.
    - apply WD.
    - intros x Hx. apply (Permutation_in _ (O _)). assumption.
    - intros u id Hid Wu K E. apply (Permutation_in _ (O _)) in Hid. pose proof (proj1 (KD id) Hid) as Hc. destruct (wfct_comp pp _ _ _ _ W Hc) as (L & F & _). destruct (wfct_comp pp _ _ _ _ WD Hid) as (LO & FO & _).
      rewrite cgetL_comp by (trivial; lia). cbn [rbind]. rewrite cget_comp by (apply K; assumption). cbn [rbind]. rewrite E.
      destruct (Nat.ltb_spec (length (prows (comp (cv d) id))) (S level - nb)); [lia|]. rewrite FO. unfold divMany. rewrite F. reflexivity.
    - rewrite V1. cbn [rbind]. exists v. split; [reflexivity|].
      assert (A1 : (0 < nb)%nat -> mwf v /\ (forall x, In x (keys v) <-> In x (keys (cv c))) /\ forall x, In x (keys (cv c)) -> comp v x = divMany pp nb level (comp (cv c) x)).
      { intros _. split; [exact V2|]. split; [intros x; rewrite V3; apply KD|].
        intros x Hx. rewrite V4. destruct (in_dec string_dec x (o (keys (cv d)))) as [|n1]; [reflexivity|]. exfalso. apply n1. apply (Permutation_in _ (Permutation_sym (O _))). apply KD. assumption. }
      assert (A2 : nb = 0%nat -> v = cv c) by lia.
      assert (X : forall s T m, (forall x, In x (parties (cv c)) -> bnd (s x) T) -> decrypts pp s (cv c) level m -> _) by (intros s T m HT HM; exact (Rescale_phase pp WF c level nb v s T m NB W A1 A2 HT HM)).
      assert (SH : wfct pp (level - nb) false v /\ forall x, In x (keys v) <-> In x (keys (cv c))).
      { destruct (decrypts_some N pp (fun _ => R0) (cv c) level WF ltac:(lia)) as [m Hm].
        destruct (X (fun _ => R0) 0 m) as (A & B & _); [intros x _ i Hi; rewrite co_R0; lia|exact Hm|]. split; assumption. }
      split; [apply SH|]. split; [apply SH|]. intros s T m HT HM. destruct (X s T m HT HM) as (_ & _ & m' & E' & E1 & E2 & E3).
      exists m'. split; [|exact E3]. exists E'. split; [exact E1|]. rewrite <- dnoise_eq. exact E2.
  Qed.
End Rescale.

Section Full.
  Context {N : nat} (pp : rparams) (WF : wfp N pp) (pscale : f64) (PS : fpos pscale).
  Notation P := (R N). Notation ct := (ckct N). Notation L := (maxLevel pp).
  Variables (crs : crsT N) (rs : rlkset N) (rk : rotset N) (ck : conjset N) (s r : string -> P) (B T : Z) (SM : small_ok pp B) (pids : list string).

  (** what a call needs: evaluation keys; for the calls that divide, secrets bounded by T *)
  Definition gready (i : ginstr) : Prop :=
    match i with GCall i => kready pp crs rs rk ck s r B T pids i | GMulH _ _ => k_relin pp crs rs s r B T pids | GRotH _ k => k_rot pp crs rk s B T pids k
    | GRescale _ _ _ | GRescaleNew _ _ => forall id, In id pids -> bnd (s id) T | _ => True end.

  Lemma keys_same (c d : ctT N) lc ld a b : wfct pp lc false c -> wfct pp ld false d -> (forall x, In x (parties c) <-> In x (kids a)) -> (forall x, In x (parties d) <-> In x (kids b)) -> same_parties a b ->
    forall x, In x (keys d) <-> In x (keys c).
  Proof using.
    clear. intros W0 W1 K0 K1 S x. destruct (string_dec x id0) as [->|NE]; [split; intros _; [apply W0|apply W1]|].
    pose proof (K0 x) as A. pose proof (K1 x) as C. rewrite in_parties in A, C. specialize (S x). tauto.
  Qed.
  (** a rescaled register *)
  Lemma div_ok (c : ct) t z nb v : kreg pp s pids c t z -> (forall id, In id pids -> bnd (s id) T) -> (nb <= klev t)%nat -> fpos (rscale pp (klev t) (ksc t) nb) -> wfct pp (klev t - nb) false v -> (forall x, In x (keys v) <-> In x (keys (cv c))) ->
    (forall (s : string -> P) T m, (forall x, In x (parties (cv c)) -> bnd (s x) T) -> decrypts pp s (cv c) (klev t) m ->
        exists m', rescaled (prodl (dropped pp nb (klev t))) (length (parties (cv c))) T m m' /\ decrypts pp s v (klev t - nb) m') ->
    kreg pp s pids (CK v (rscale pp (klev t) (csc c) nb)) (div_info N pp T t nb) z.
  Proof using WF.
    intros RX HT LN FP WV KV H. pose proof (kreg_len pp s pids _ _ _ RX) as LX. destruct RX as (W0 & H0 & S0 & F0 & K0 & N0 & I0 & m0 & D0 & B0 & Z0).
    unfold div_info, kreg. cbn [kids klev ksc kM kmu keps csc cv]. rewrite S0. split; [exact WV|]. split; [lia|]. split; [reflexivity|]. split; [exact FP|].
    split; [apply (k_same (cv c)); assumption|]. split; [exact N0|]. split; [exact I0|].
    destruct (H s T m0) as (m' & (E & EQ & HB) & DM); [intros x Hx; apply HT, I0, K0; exact Hx|exact D0|]. rewrite LX in HB. exists m'. split; [exact DM|].
    set (D := prodl (dropped pp nb (klev t))) in *. assert (D1 : 1 <= D) by (apply (dropped_pos pp WF); lia). fold (round2 N T D (length (kids t))) in HB. set (e2 := round2 N T D (length (kids t))) in *.
    assert (EQ2 : smul (2 * D) m' = add (smul 2 m0) (smul 2 E)).
    { apply R_ext. intros i Hi. apply (f_equal (fun r => co r i)) in EQ. rewrite ?co_add, ?co_smul, ?co_add, ?co_smul in *. lia. }
    split.
    - apply bnd_div; [lia|]. rewrite EQ2. apply bnd_add; [apply bnd_smul0; [lia|exact B0]|exact HB].
    - apply (near_div (NP pp WF) D e2 m0 m' (smul 2 E)); trivial; [lia|apply F0|apply FP].
  Qed.

  Lemma gcall_ok (o : nat -> IdSetModel.order) (st : evalst N) (pts : list (poly N * f64)) (pis : list kpinfo) (zpts : list slots) (i : ginstr) (regs : list ct) (ts : list kinfo) (zs : list slots) ts' :
    (forall n, order_ok (o n)) -> pool_ok pp st -> gready i -> gstep N pp pscale crs B T pis ts i ts' -> length ts = length regs -> length zs = length regs ->
    (forall a c ti, nth_error regs a = Some c -> nth_error ts a = Some ti -> kreg pp s pids c ti (nth a zs zslots)) ->
    (forall p q, nth_error pis p = Some q -> exists x, nth_error pts p = Some x /\ kplainreg pp x q (nth p zpts zslots)) ->
    exists st' regs', vcall pp (HE crs pscale rs rk ck) o (VW st regs) (hop_of pts i) = Ok (VW st' regs') /\ pool_ok pp st' /\
      length ts' = length regs' /\ length (gplain N zpts zs i) = length regs' /\
      forall a c ti, nth_error regs' a = Some c -> nth_error ts' a = Some ti -> kreg pp s pids c ti (nth a (gplain N zpts zs i) zslots).
  Proof using WF PS SM.
    intros O PO HR ST LT LZ HI HP.
    assert (GET : forall a ti, nth_error ts a = Some ti -> exists c, BasisExt.idx (A := ct) regs a = Ok c /\ nth_error regs a = Some c /\ kreg pp s pids c ti (nth a zs zslots)).
    { intros a ti Ha. destruct (nth_error regs a) as [c|] eqn:E.
      - exists c. unfold BasisExt.idx. rewrite E. split; [reflexivity|]. split; [reflexivity|]. apply (HI a); assumption.
      - apply nth_error_None in E. assert (nth_error ts a <> None) by congruence. apply nth_error_Some in H. lia. }
    (* a new register *)
    assert (APP : forall st' (c : ct) t z ti' zs', ti' = ts ++ [t] -> zs' = zs ++ [z] -> vcall pp (HE crs pscale rs rk ck) o (VW st regs) (hop_of pts i) = Ok (VW st' (regs ++ [c])) -> pool_ok pp st' -> kreg pp s pids c t z ->
      exists st' regs', vcall pp (HE crs pscale rs rk ck) o (VW st regs) (hop_of pts i) = Ok (VW st' regs') /\ pool_ok pp st' /\ length ti' = length regs' /\ length zs' = length regs' /\
        forall a c ti, nth_error regs' a = Some c -> nth_error ti' a = Some ti -> kreg pp s pids c ti (nth a zs' zslots)).
    { intros st' c t z ti' zs' -> -> V PO' K. exists st', (regs ++ [c]). split; [exact V|]. split; [exact PO'|]. split; [rewrite !app_length; cbn; lia|]. split; [rewrite !app_length; cbn; lia|].
      intros a c' t'. rewrite !nth_error_snoc, LT. destruct (Nat.eqb_spec a (length regs)) as [->|NE].
      - intros E1 E2. injection E1 as <-. injection E2 as <-. rewrite app_nth2 by lia. rewrite LZ, Nat.sub_diag. exact K.
      - intros E1 E2. assert (a < length regs)%nat by (apply nth_error_Some; congruence). rewrite app_nth1 by lia. apply HI; assumption. }
    (* a register that is overwritten *)
    assert (UPD : forall b (c : ct) t z ti' zs', (b < length regs)%nat -> ti' = upd ts b t -> (zs' = upd zs b z \/ (zs' = zs /\ z = nth b zs zslots)) -> vcall pp (HE crs pscale rs rk ck) o (VW st regs) (hop_of pts i) = Ok (VW st (upd regs b c)) -> kreg pp s pids c t z ->
      exists st' regs', vcall pp (HE crs pscale rs rk ck) o (VW st regs) (hop_of pts i) = Ok (VW st' regs') /\ pool_ok pp st' /\ length ti' = length regs' /\ length zs' = length regs' /\
        forall a c ti, nth_error regs' a = Some c -> nth_error ti' a = Some ti -> kreg pp s pids c ti (nth a zs' zslots)).
    { intros b c t z ti' zs' Hb -> EZ V K. exists st, (upd regs b c). split; [exact V|]. split; [exact PO|].
      assert (NZ : forall a, nth a zs' zslots = if (a =? b)%nat then z else nth a zs zslots).
      { intros a. destruct EZ as [->|[-> ->]]; destruct (Nat.eqb_spec a b) as [->|NE]; try reflexivity; [apply upd_nth_eq; lia|apply upd_nth_neq; exact NE]. }
      split; [rewrite !upd_len; exact LT|]. split; [destruct EZ as [->|[-> _]]; rewrite ?upd_len; lia|].
      intros a c' t'. rewrite !nth_error_upd, NZ. destruct (Nat.eqb_spec a b) as [->|NE]; [|intros E1 E2; apply HI; assumption].
      destruct (nth_error regs b), (nth_error ts b); intros E1 E2; try discriminate. injection E1 as <-. injection E2 as <-. exact K. }
    assert (LTR : forall a (c : ct), nth_error regs a = Some c -> (a < length regs)%nat) by (intros a c E; apply nth_error_Some; congruence).
    (* the calls of CkksCircuit.v *)
    assert (KC : forall k t, kready pp crs rs rk ck s r B T pids k -> kstep N pp pscale crs B T pis ts k t -> exists st' c, kcall pp pscale crs rs rk ck pts o st regs k = Ok (st', c) /\ pool_ok pp st' /\ kreg pp s pids c t (kplain N zpts k zs)).
    { intros k t HK SK. apply (kcall_ok pp WF pscale PS crs rs rk ck s r B T SM pids o st pts pis zpts k regs ts zs t); assumption. }
    destruct ST as [k t SK|a t Ha|a n t Ha Hn|a k b ta tb z Ha Hb SP HL KZ HZ|a k b ta tb x KM Ha Hb SP HL KX FX BX NI q FQ HKM|a sc nb t Ha L1 M1 DV FP|a sc b nb ta tb Ha Hb NE SP HLD L1 M1 DV Hnb FP|a sc t Ha ER|a sc nb t Ha L1 M1 DV Hnb FP|a b t SK|a k t SK AV]; cbn [gready] in HR.
    - (* the calls of CkksCircuit.v *)
      destruct (KC k t HR SK) as (st' & c & C1 & C2 & C3). apply (APP st' c t (kplain N zpts k zs)); trivial.
      destruct k as [i j|i j|i j|i k|i|i p|i n]; cbn [hop_of vcall kcall vwcts vwev he_crs he_scale he_rlk he_rot he_cj] in *; unfold rbind in *.
      + destruct (BasisExt.idx regs i); [|discriminate]. destruct (BasisExt.idx regs j); [|discriminate]. rewrite C1. reflexivity.
      + destruct (BasisExt.idx regs i); [|discriminate]. destruct (BasisExt.idx regs j); [|discriminate]. rewrite C1. reflexivity.
      + destruct (BasisExt.idx regs i); [|discriminate]. destruct (BasisExt.idx regs j); [|discriminate]. destruct (MulRelinNew _ _ _ _ _ _ _ _); [|discriminate]. injection C1 as <- <-. reflexivity.
      + destruct (BasisExt.idx regs i); [|discriminate]. destruct (RotateNew _ _ _ _ _ _); [|discriminate]. injection C1 as <- <-. reflexivity.
      + destruct (BasisExt.idx regs i); [|discriminate]. destruct (ConjugateNew _ _ _ _ _); [|discriminate]. injection C1 as <- <-. reflexivity.
      + destruct (BasisExt.idx regs i); [|discriminate]. unfold BasisExt.idx in C1. destruct (nth_error pts p) as [q|] eqn:EQ; [|discriminate]. rewrite (nth_error_nth pts p _ EQ). rewrite C1. reflexivity.
      + destruct (BasisExt.idx regs i); [|discriminate]. destruct (DropLevelNew _ _ _ _); [|discriminate]. injection C1 as <- <-. reflexivity.
    - (* CopyNew *)
      destruct (GET a t Ha) as (x & Gx & Ex & RX). destruct (KC (KDrop a 0) (KI (kids t) (klev t - 0) (ksc t) (kM t) (kmu t) (keps t))) as (st' & c & C1 & C2 & C3); [exact Logic.I|apply kstep_drop; [exact Ha|lia]|].
      apply (APP st' c t (nth a zs zslots)); trivial; [|rewrite Nat.sub_0_r in C3; destruct t; exact C3].
      cbn [kcall] in C1. rewrite Gx in C1. cbn [rbind] in C1. assert (W0 := proj1 RX). rewrite (copy_drop0 pp (o 0%nat) x (klev t) (O 0%nat) W0) in C1.
      cbn [hop_of vcall vwcts vwev]. rewrite Gx. cbn [rbind]. destruct (ckCopyNew _ _) as [v|]; cbn [rbind] in *; [|discriminate]. injection C1 as <- <-. reflexivity.
    - (* DropLevel *)
      destruct (GET a t Ha) as (x & Gx & Ex & W0 & H0 & S0 & F0 & K0 & N0 & I0 & m0 & D0 & B0 & Z0).
      destruct (C28_drop_level N pp (o 0%nat 0%nat) x (klev t) n WF (fun l => O 0%nat 0%nat l) Hn W0) as (v & A1 & A2 & _ & A3 & A4).
      eapply (UPD a (CK v (csc x)) _ (nth a zs zslots)); [apply (LTR a x Ex)|reflexivity|right; split; reflexivity|cbn [hop_of vcall vwcts vwev]; rewrite Gx; cbn [rbind]; rewrite A1; reflexivity|].
      unfold kreg. cbn [kids klev ksc kM kmu keps csc cv]. split; [exact A2|]. split; [lia|]. split; [exact S0|]. split; [exact F0|]. split; [apply (k_same (cv x)); assumption|]. split; [exact N0|]. split; [exact I0|].
      exists m0. split; [|split; assumption]. intros u Hu. rewrite A4 by exact Hu. apply D0. lia.
    - (* MultByConst, integer *)
      destruct (GET a ta Ha) as (x & Gx & Ex & W0 & H0 & S0 & F0 & K0 & N0 & I0 & m0 & D0 & B0 & Z0). destruct (GET b tb Hb) as (y & Gy & Ey & W1 & H1 & S1 & F1 & K1 & N1 & I1 & _).
      destruct (C29_integer N pp (o 0%nat 0%nat) x y k z (klev ta) (klev tb) WF (fun l => O 0%nat 0%nat l) H0 H1 W0 W1) as (u & A1 & A2 & A3 & A4); trivial; [apply (keys_same _ _ (klev ta) (klev tb) ta tb); assumption|].
      assert (CV : cval k = IZR z) by (destruct KZ as [->|[->|[->|(f & _ & E & [->| ->])]]]; cbn [cval]; try reflexivity; exact E).
      eapply (UPD b (CK u (csc x)) _ (fun q => cscale (cval k) (nth a zs zslots q))); [apply (LTR b y Ey)|reflexivity|left; reflexivity|cbn [hop_of vcall vwcts vwev]; rewrite Gx; cbn [rbind]; rewrite Gy; cbn [rbind]; rewrite A1; reflexivity|].
      rewrite CV. unfold int_info, kreg. cbn [kids klev ksc kM kmu keps csc cv]. split; [exact A2|]. split; [exact H1|]. split; [exact S0|]. split; [exact F0|]. split; [apply (k_same (cv x)); assumption|]. split; [exact N0|]. split; [exact I0|].
      exists (smul z m0). split; [|split].
      + intros j Hj. eapply eqm_trans; [apply A4; lia|]. rewrite !smul_cst. apply eqm_mul; [apply eqm_refl|]. apply D0. lia.
      + apply bnd_smul. exact B0.
      + pose proof (near_const (NP pp WF) z (IZR z) m0 _ _ _ _ _ (proj2 F0) (proj2 F0) Z0) as X. eapply near_mono; [apply Rle_refl| |exact X].
        assert (B2R (ksc ta) <> 0)%R by (pose proof (proj2 F0); lra). replace (IZR z * B2R (ksc ta) / B2R (ksc ta) - IZR z)%R with 0%R by (field; assumption). rewrite Rabs_R0. lra.
    - (* MultByConst, fraction *)
      destruct (GET a ta Ha) as (c & Gx & Ex & W0 & H0 & S0 & F0 & K0 & N0 & I0 & m0 & D0 & B0 & Z0). destruct (GET b tb Hb) as (y & Gy & Ey & W1 & H1 & S1 & F1 & K1 & N1 & I1 & _).
      destruct (C29_fraction N pp (o 0%nat 0%nat) c y k x (klev ta) (klev tb) WF (fun l => O 0%nat 0%nat l) H0 H1 W0 W1) as (u & K & A1 & A2 & A3 & AK & A4); trivial; [apply (keys_same _ _ (klev ta) (klev tb) ta tb); assumption|].
      rewrite (Nat.min_r (klev ta) (klev tb)) in A1, AK, A4 by exact HL. fold q in A1, AK.
      assert (CV : cval k = B2R x) by (destruct KX as [->| ->]; reflexivity).
      eapply (UPD b (CK u (f_mul (csc c) q)) _ (fun q => cscale (cval k) (nth a zs zslots q))); [apply (LTR b y Ey)|reflexivity|left; reflexivity|cbn [hop_of vcall vwcts vwev]; rewrite Gx; cbn [rbind]; rewrite Gy; cbn [rbind]; rewrite A1; reflexivity|].
      rewrite CV. unfold frac_info, kreg. cbn [kids klev ksc kM kmu keps csc cv]. fold q. split; [exact A2|]. split; [exact H1|]. split; [rewrite S0; reflexivity|]. split; [exact FQ|]. split; [apply (k_same (cv c)); assumption|]. split; [exact N0|]. split; [exact I0|].
      assert (HKZ : Z.abs K <= KM).
      { apply le_IZR. rewrite abs_IZR. set (k0 := rnd (B2R q * B2R x)) in *. replace (IZR K) with ((IZR K - k0) + k0)%R by ring. eapply Rle_trans; [apply Rabs_triang|]. lra. }
      exists (smul K m0). split; [|split].
      + intros j Hj. eapply eqm_trans; [apply A4; lia|]. rewrite !smul_cst. apply eqm_mul; [apply eqm_refl|]. apply D0. lia.
      + intros j Hj. pose proof (bnd_smul K m0 (kM ta) B0 j Hj) as X. pose proof (B0 j Hj). eapply Z.le_trans; [exact X|]. apply Z.mul_le_mono_nonneg_r; [lia|exact HKZ].
      + pose proof (near_const (NP pp WF) K (B2R x) m0 _ _ _ _ _ (proj2 F0) (proj2 FQ) Z0) as X. set (sg := B2R (f_mul (ksc ta) q)) in *. set (k0 := rnd (B2R q * B2R x)) in *. pose proof (proj2 F0) as P0. pose proof (proj2 FQ) as P1. fold sg in P1.
        assert (MP : (N / 2 = 0)%nat \/ (0 <= kmu ta + keps ta)%R).
        { destruct (N / 2)%nat as [|h] eqn:EN; [left; reflexivity|right]. destruct (Z0 0%nat ltac:(rewrite EN; lia)) as [Y1 Y2]. pose proof (cabs_nonneg (csub (cscale (/ B2R (ksc ta)) (ckks_slot m0 0)) (nth a zs zslots 0%nat))). pose proof (cabs_nonneg (nth a zs zslots 0%nat)). lra. }
        destruct MP as [MP|MP]; [intros j Hj; lia|]. eapply near_mono; [apply Rle_refl| |exact X]. apply Rplus_le_compat_l. apply Rmult_le_compat_r; [exact MP|].
        replace (IZR K * B2R (ksc ta) / sg - B2R x)%R with ((k0 * B2R (ksc ta) / sg - B2R x) + (IZR K - k0) * (B2R (ksc ta) / sg))%R by (field; lra).
        assert (PQ : (0 < B2R (ksc ta) / sg)%R) by (apply Rdiv_lt_0_compat; lra).
        eapply Rle_trans; [apply Rabs_triang|]. apply Rplus_le_compat_l. rewrite Rabs_mult, (Rabs_right (B2R (ksc ta) / sg)) by lra. rewrite <- (Rmult_1_l (B2R (ksc ta) / sg)) at 2. apply Rmult_le_compat_r; lra.
    - (* Rescale in place *)
      destruct (GET a t Ha) as (x & Gx & Ex & RX). assert (RX' := RX). destruct RX' as (W0 & H0 & S0 & F0 & _).
      destruct (C26_rescale N pp (o 0%nat 0%nat) x sc (klev t) nb WF (fun l => O 0%nat 0%nat l) (conj L1 H0) W0 M1) as (v & A1 & A2 & A3 & A4); [rewrite S0; apply fpos_eq0; exact F0|rewrite S0; exact DV|].
      apply (UPD a (CK v (rscale pp (klev t) (csc x) nb)) (div_info N pp T t nb) (nth a zs zslots)); [apply (LTR a x Ex)|reflexivity|left; reflexivity|cbn [hop_of vcall vwcts vwev]; rewrite Gx; cbn [rbind]; rewrite Nat.eqb_refl, A1; reflexivity|].
      apply div_ok; trivial. apply DV.
    - (* Rescale into another ciphertext *)
      destruct (GET a ta Ha) as (x & Gx & Ex & RX). assert (RX' := RX). destruct RX' as (W0 & H0 & S0 & F0 & K0 & _). destruct (GET b tb Hb) as (y & Gy & Ey & W1 & H1 & S1 & F1 & K1 & _).
      destruct (Rescale_into pp WF (o 0%nat 0%nat) x y sc (klev ta) (klev tb) nb (fun l => O 0%nat 0%nat l) (conj L1 H0) W0 W1 M1) as (v & A1 & A2 & A3 & A4); trivial; [rewrite S0; apply fpos_eq0; exact F0|rewrite S0; exact DV|apply (keys_same _ _ (klev ta) (klev tb) ta tb); assumption|].
      apply (UPD b (CK v (rscale pp (klev ta) (csc x) nb)) (div_info N pp T ta nb) (nth a zs zslots)); [apply (LTR b y Ey)|reflexivity|left; reflexivity| |].
      + cbn [hop_of vcall vwcts vwev]. rewrite Gx. cbn [rbind]. rewrite Gy. cbn [rbind]. destruct (Nat.eqb_spec a b); [contradiction|]. rewrite A1. reflexivity.
      + apply div_ok; trivial. apply DV.
    - (* Rescale that reports an error *)
      destruct (GET a t Ha) as (x & Gx & Ex & RX). pose proof (proj1 RX) as W0.
      apply (UPD a x t (nth a zs zslots)); [apply (LTR a x Ex)| |left; reflexivity| |exact RX].
      + symmetry. clear - Ha. revert a Ha. induction ts as [|y l IH]; intros [|a] Ha; cbn in *; try discriminate; [injection Ha as ->; reflexivity|]. f_equal. apply IH. exact Ha.
      + cbn [hop_of vcall vwcts vwev]. rewrite Gx. cbn [rbind]. rewrite Nat.eqb_refl. rewrite (C26_errors N pp (o 0%nat 0%nat) x sc None (klev t) W0) by tauto. reflexivity.
    - (* RescaleNew *)
      destruct (GET a t Ha) as (x & Gx & Ex & RX). assert (RX' := RX). destruct RX' as (W0 & H0 & S0 & F0 & _).
      destruct (C27_rescale_new N pp (o 0%nat) x sc (klev t) nb WF (O 0%nat) (conj L1 H0) W0 M1) as (v & A1 & A2 & A3 & A4); trivial; [rewrite S0; apply fpos_eq0; exact F0|rewrite S0; exact DV|].
      apply (APP st (CK v (rscale pp (klev t) (csc x) nb)) (div_info N pp T t nb) (nth a zs zslots)); trivial; [cbn [hop_of vcall vwcts vwev]; rewrite Gx; cbn [rbind]; rewrite A1; reflexivity|].
      apply div_ok; trivial. apply DV.
    - (* HoistedForm and MulRelinHoistedNew *)
      destruct (KC (KMul a b) t HR SK) as (st' & c & C1 & C2 & C3). apply (APP st' c t (kplain N zpts (KMul a b) zs)); trivial.
      assert (EA : exists ta, nth_error ts a = Some ta) by (inversion SK; subst; eauto). assert (EB : exists tb, nth_error ts b = Some tb) by (inversion SK; subst; eauto). destruct EA as (ta & Ha), EB as (tb & Hb).
      destruct (GET a ta Ha) as (x & Gx & Ex & W0 & H0 & S0 & F0 & K0 & N0 & I0 & _). destruct (GET b tb Hb) as (y & Gy & Ey & W1 & H1 & S1 & F1 & K1 & N1 & I1 & _).
      destruct (form_ok pp WF (o 1%nat) x (klev ta) (O 1%nat) H0 W0) as (ha & A1 & A2). destruct (form_ok pp WF (o 2%nat) y (klev tb) (O 2%nat) H1 W1) as (hb & A3 & A4).
      destruct HR as (ca & cu & GA & GU & CA & CU & HK).
      cbn [hop_of vcall vwcts vwev he_crs he_scale he_rlk]. cbn [kcall] in C1. rewrite Gx in *. cbn [rbind] in *. rewrite Gy in *. cbn [rbind] in *. rewrite A1. cbn [rbind]. rewrite A3. cbn [rbind].
      rewrite (hoisted_mul pp WF (o 0%nat) crs pscale x y (a =? b)%nat ha hb rs (klev ta) (klev tb)); trivial.
      + destruct (MulRelinNew _ _ _ _ _ _ _ _) as [v|]; cbn [rbind] in *; [|discriminate]. injection C1 as <- <-. reflexivity.
      + intros E. apply Nat.eqb_eq in E. subst b. congruence.
      + intros id [Hid|Hid]; (destruct (has_relin_ok pp crs rs B T id (s id) (r id) ca cu WF SM GA GU CA CU) as (key & KG & _); [apply HK|exists key; exact KG]); [apply I0, K0|apply I1, K1]; exact Hid.
    - (* HoistedForm and RotateHoistedNew *)
      destruct (KC (KRot a k) t HR SK) as (st' & c & C1 & C2 & C3). apply (APP st' c t (kplain N zpts (KRot a k) zs)); trivial.
      assert (EA : exists ta, nth_error ts a = Some ta) by (inversion SK; subst; eauto). destruct EA as (ta & Ha). destruct (GET a ta Ha) as (x & Gx & Ex & W0 & H0 & _).
      destruct (form_ok pp WF (o 1%nat) x (klev ta) (O 1%nat) H0 W0) as (ha & A1 & A2).
      cbn [hop_of vcall vwcts vwev he_crs he_rot]. cbn [kcall] in C1. rewrite Gx in *. cbn [rbind] in *. rewrite A1. cbn [rbind].
      rewrite (C23_hoisted N pp o crs x k ha rk (klev ta) WF O H0 W0 A2).
      replace ((k mod Z.of_nat (N / 2) =? 0) || mhas Z.eq_dec crs (k mod Z.of_nat (N / 2))) with true.
      + destruct (RotateNew _ _ _ _ _ _) as [v|]; cbn [rbind] in *; [|discriminate]. injection C1 as <- <-. reflexivity.
      + symmetry. apply orb_true_iff. cbn zeta in AV. destruct AV as [HA|HA]; [left; apply Z.eqb_eq; exact HA|right]. unfold mhas. destruct (mget Z.eq_dec crs (k mod Z.of_nat (N / 2))); [reflexivity|contradiction].
  Qed.
End Full.

(** ** C61 *)
Theorem C61_program : forall N pp pscale crs (rs : rlkset N) (rk : rotset N) (ck : conjset N) (s r : string -> R N) B T (pids : list string) (w : nat -> nat -> IdSetModel.order)
  (pts : list (poly N * f64)) (pis : list kpinfo) (zpts : list slots) prog n (st : evalst N) (cs : list (ckct N)) ts zs ts',
  wfp N pp -> fpos pscale -> small_ok pp B -> (forall n m, order_ok (w n m)) -> pool_ok pp st ->
  Forall (gready pp crs rs rk ck s r B T pids) prog -> gsteps N pp pscale crs B T pis ts prog ts' ->
  length ts = length cs -> length zs = length cs -> (forall a c t, nth_error cs a = Some c -> nth_error ts a = Some t -> kreg pp s pids c t (nth a zs zslots)) ->
  (forall p q, nth_error pis p = Some q -> exists x, nth_error pts p = Some x /\ kplainreg pp x q (nth p zpts zslots)) ->
  exists st' cs', vrun pp (HE crs pscale rs rk ck) w n (map (hop_of pts) prog) (VW st cs) = Ok (VW st' cs') /\ pool_ok pp st' /\ length ts' = length cs' /\
    forall a c t, nth_error cs' a = Some c -> nth_error ts' a = Some t -> kreg pp s pids c t (nth a (gplain_run N zpts prog zs) zslots).
Proof.
  intros N pp pscale crs rs rk ck s r B T pids w pts pis zpts prog n st cs ts zs ts' WF PS SM O PO F ST. revert n st cs zs PO F.
  induction ST as [ts|ts i ts1 prog ts' S1 ST IH]; intros n st cs zs PO F L1 L2 H HP; cbn [map vrun gplain_run fold_left].
  - exists st, cs. split; [reflexivity|]. split; [exact PO|]. split; [exact L1|exact H].
  - inversion F as [|? ? F1 F2]; subst.
    destruct (gcall_ok pp WF pscale PS crs rs rk ck s r B T SM pids (w n) st pts pis zpts i cs ts zs ts1 (O n) PO F1 S1 L1 L2 H HP) as (st1 & cs1 & C1 & C2 & C3 & C4 & C5). rewrite C1. cbn [rbind].
    apply (IH (S n) st1 cs1 (gplain N zpts zs i)); assumption.
Qed.
Print Assumptions C61_program.

(** the client puts the ciphertexts cs into storage and runs the program with a new Evaluator *)
Definition hclient {N} pp (pscale : f64) crs (rs : rlkset N) (rk : rotset N) (ck : conjset N) pts (w : nat -> nat -> IdSetModel.order) (cs : list (ckct N)) (prog : list ginstr) : res (hworld N) :=
  hrun pp (HE crs pscale rs rk ck) w 0 (map (@HPut N) cs ++ map (hop_of pts) prog) (hinit pp).

Lemma vrun_put {N} pp (e : henv N) (w : nat -> nat -> IdSetModel.order) (rest : list (hop N)) : forall cs n (st : evalst N) cs0,
  vrun pp e w n (map (@HPut N) cs ++ rest) (VW st cs0) = vrun pp e w (n + length cs) rest (VW st (cs0 ++ cs)).
Proof.
  induction cs as [|c cs IH]; intros n st cs0; cbn [map app length vrun vcall vwcts vwev rbind]; [rewrite app_nil_r, Nat.add_0_r; reflexivity|].
  rewrite IH, <- app_assoc. cbn [app]. f_equal. lia.
Qed.
Lemma NewEval_pool {N} pp : pool_ok pp (NewEvaluator pp : evalst N).
Proof.
  unfold pool_ok, NewEvaluator. cbn [ctxtPool polyQPool]. rewrite tab_length. split; [|reflexivity]. split; [|split; [left; reflexivity|]].
  - apply (mwf_mset seq_dec nil). constructor.
  - intros x [<-|[]]. split; [apply tab_length|reflexivity].
Qed.
(** decryption of a register *)
Lemma kreg_decrypts {N} pp (s : string -> R N) (pids : list string) (o : IdSetModel.order) sks (pt : poly N) (c : ckct N) t z :
  wfp N pp -> order_ok o -> kreg pp s pids c t z -> keys_ok pp (fun _ => True) s sks -> plevel pt = maxLevel pp -> incl (kids t) (keys sks) -> fits pp t ->
  exists p, Decrypt pp o (cv c) sks pt = Ok p /\ plevel p = klev t /\
    exists X, centred pp (klev t) (prows p) X /\ (forall Y, centred pp (klev t) (prows p) Y -> Y = X) /\
      forall j, (j < N / 2)%nat -> (cabs (csub (cscale (/ B2R (csc c)) (ckks_slot X j)) (z j)) <= keps t)%R.
Proof.
  intros WF O' (W & HL & SC & FP & K & ND & IN & m & D & BM & NM) KO PL I HM.
  destruct (C15_value N pp (klev t) false o (cv c) s sks pt WF HL O' W) as (p & P1 & P2 & P3).
  { destruct KO as [A C]. split; [exact A|]. intros id k Hk. destruct (C id k Hk) as [C1 C2]. split; [exact C1|]. intros _. apply C2. exact Logic.I. }
  { intros x Hx. apply I. apply K. exact Hx. }
  rewrite PL in P2, P3. replace (Nat.min (klev t) (maxLevel pp)) with (klev t) in * by (unfold maxLevel; lia).
  exists p. split; [exact P1|]. split; [exact P2|].
  assert (CM : centred pp (klev t) (prows p) m).
  { split.
    - intros j i Hj Hi. destruct (P3 j Hj) as [_ E]. assert (E' := eqm_trans _ _ _ _ E (D j Hj)). unfold pvalue in E'. cbn [pntt prows] in E'. rewrite eqm_co in E'. apply E'. exact Hi.
    - intros i Hi. destruct HM as [HM|HM]; [specialize (BM i Hi); lia|].
      assert (BS : bnd m ((qlev pp (klev t) - 1) / 2)).
      { apply (near_bnd (pow2N pp WF) (proj1 (wf_N _ _ WF)) m _ _ _ _ _ (proj2 FP) NM). set (q := qlev pp (klev t)) in *. pose proof (Z.div_mod (q - 1) 2 ltac:(lia)). pose proof (Z.mod_pos_bound (q - 1) 2 ltac:(lia)).
        set (h := (q - 1) / 2) in *. assert (X : (IZR q <= 2 * IZR (h + 1))%R) by (rewrite <- (mult_IZR 2); apply IZR_le; lia). lra. }
      specialize (BS i Hi). set (q := qlev pp (klev t)) in *. pose proof (Z.mul_div_le (q - 1) 2 ltac:(lia)). lia. }
  exists m. split; [exact CM|]. split; [intros Y CY; apply (centred_unique pp (klev t) (prows p)); assumption|]. intros j Hj. rewrite SC. apply NM. exact Hj.
Qed.

(** the rotation indices a program uses *)
Definition grots {N} (crs : crsT N) (prog : list ginstr) (rots : list Z) : Prop :=
  forall a k j, In (GCall (KRot a k)) prog \/ In (GRotH a k) prog -> let q := k mod Z.of_nat (N / 2) in q <> 0 -> used_index crs q j -> In j rots.

(** all parties make their keys with the key generator, the inputs are encrypted by EncryptMsgNew and put into storage, the client runs any program with one Evaluator:
    no call panics, every ciphertext it holds at the end has the parties, level and scale of the plan, and Decrypt with everybody's secret keys gives, for each one that fits
    into the modulus of its level, a polynomial whose slots are within the error bound of what the program computes on slots *)
Theorem C61_end_to_end : forall N pp pscale B T M mu eps crs (rs : rlkset N) (rk : rotset N) (ck : conjset N) sks (pk : string -> publicKey N) (s r : string -> R N) (pids : list string) rots
  (w : nat -> nat -> IdSetModel.order) (oe : nat -> list string -> list string) (o : IdSetModel.order) (pt : poly N) pts pis zpts (ins : list (kinput N)) prog ts',
  wfp N pp -> fpos pscale -> (forall n m, order_ok (w n m)) -> (forall n, ord1_ok (oe n)) -> order_ok o -> small_ok pp B -> small_ok pp T ->
  (forall i, In i ([0; -1; -2] ++ rots) -> exists c, mget Z.eq_dec crs i = Some c /\ crs_ok pp c) ->
  mwf sks -> (forall id k, mget seq_dec sks id = Some k -> In id pids) ->
  (forall id, In id pids -> id <> id0 /\ kgenerated pp B T crs rs rk ck sks rots pk id (s id) (r id)) ->
  (forall x, In x ins -> In (ki_id x) pids /\ kinput_ok pp pscale B T M mu eps x) ->
  (forall p q, nth_error pis p = Some q -> exists x, nth_error pts p = Some x /\ kplainreg pp x q (nth p zpts zslots)) ->
  grots crs prog rots -> gsteps N pp pscale crs B T pis (map (fun x => kfresh N pp pscale B T M mu eps (ki_id x)) ins) prog ts' -> plevel pt = maxLevel pp ->
  exists cs h, kencrypt pp pscale pk oe ins = Ok cs /\ hclient pp pscale crs rs rk ck pts w cs prog = Ok h /\ length (contents h) = length ts' /\
    forall a t, nth_error ts' a = Some t -> exists c, nth_error (contents h) a = Some c /\ csc c = ksc t /\ ctLevel (cv c) = Ok (klev t) /\ (forall x, In x (parties (cv c)) <-> In x (kids t)) /\
      (fits pp t -> exists p, Decrypt pp o (cv c) sks pt = Ok p /\ plevel p = klev t /\
        exists X, centred pp (klev t) (prows p) X /\ (forall Y, centred pp (klev t) (prows p) Y -> Y = X) /\
          forall j, (j < N / 2)%nat -> (cabs (csub (cscale (/ B2R (csc c)) (ckks_slot X j)) (nth a (gplain_run N zpts prog (map ki_z ins)) zslots j)) <= keps t)%R).
Proof.
  intros N pp pscale B T M mu eps crs rs rk ck sks pk s r pids rots w oe o pt pts pis zpts ins prog ts' WF PS O OE OD SM SMT HC MW HS HG HI HP HR ST PL.
  pose (kp := KPt 0 0 :: flat_map (fun i => match i with GCall k => [k] | GMulH a b => [KMul a b] | GRotH a k => [KRot a k] | _ => nil end) prog).
  destruct (kend_setup pp pscale B T M mu eps crs rs rk ck sks pk s r pids rots oe ins kp) as (cs & CS1 & CS2 & CS3 & RDY & KO & IK); trivial.
  { intros i k j [E|I]; [discriminate E|]. apply in_flat_map in I as (g & Ig & I). apply (HR i k j). destruct g; cbn in I; try tauto; destruct I as [I|[]]; subst; try discriminate I; [left; exact Ig|]. injection I as -> ->. right. exact Ig. }
  assert (GR : Forall (gready pp crs rs rk ck s r B T pids) prog).
  { inversion RDY as [|? ? R1 R2]; subst. cbn [kready] in R1. apply Forall_forall. intros g Ig. rewrite Forall_forall in R2.
    destruct g as [k|a|a n|a k b|a sc b|a sc|a b|a k]; cbn [gready]; trivial.
    - apply R2. apply in_flat_map. exists (GCall k). split; [exact Ig|left; reflexivity].
    - apply (R2 (KMul a b)). apply in_flat_map. exists (GMulH a b). split; [exact Ig|left; reflexivity].
    - apply (R2 (KRot a k)). apply in_flat_map. exists (GRotH a k). split; [exact Ig|left; reflexivity]. }
  destruct (C61_program N pp pscale crs rs rk ck s r B T pids w pts pis zpts prog (0 + length cs) (NewEvaluator pp) cs (map (fun x => kfresh N pp pscale B T M mu eps (ki_id x)) ins) (map ki_z ins) ts') as (st' & cs' & R1 & _ & R3 & R4);
    rewrite ?map_length, ?CS2; trivial.
  { apply NewEval_pool. }
  assert (ND : forall c, In (HPut c) (map (@HPut N) cs ++ map (hop_of pts) prog) -> NoDup (keys (cv c))).
  { intros c I. apply in_app_iff in I as [I|I].
    - apply in_map_iff in I as (c' & E & I). injection E as ->. destruct (In_nth_error _ _ I) as (k & Ek).
      destruct (nth_error (map (fun x => kfresh N pp pscale B T M mu eps (ki_id x)) ins) k) as [t|] eqn:Et; [apply (CS3 k c t Ek Et)|].
      apply nth_error_None in Et. rewrite map_length in Et. assert (k < length cs)%nat by (apply nth_error_Some; congruence). lia.
    - apply in_map_iff in I as (g & E & I). destruct g as [[]| | | | | | |]; discriminate E. }
  pose proof (C55_values pp (HE crs pscale rs rk ck) w (map (@HPut N) cs ++ map (hop_of pts) prog) O ND) as V. rewrite vrun_put in V. cbn [app] in V. rewrite R1 in V. destruct V as (h & V1 & V2). cbn [vwcts] in V2.
  exists cs, h. split; [exact CS1|]. split; [exact V1|]. rewrite V2. split; [symmetry; exact R3|]. intros a t Ha.
  destruct (nth_error cs' a) as [c|] eqn:EC; [|apply nth_error_None in EC; assert (a < length ts')%nat by (apply nth_error_Some; congruence); lia].
  exists c. split; [reflexivity|]. pose proof (R4 a c t EC Ha) as RX. assert (RX' := RX). destruct RX' as (W & HL & SC & FP & K & _ & IN & _). split; [exact SC|]. split; [apply (wfct_level pp _ _ _ W)|]. split; [exact K|].
  intros HF. apply (kreg_decrypts pp s pids); trivial. intros x Hx. apply IK. apply IN. exact Hx.
Qed.
Print Assumptions C61_end_to_end.
