(** Proofs about the calls of EvShareAll.v: alone they are the sequential model (EvalPool.v), and no step changes the sizes of the shared buffers. *)
From Flocq Require Import Core BinarySingleNaN.
From Verif Require Import Base IdSetModel IdSetProofs KeySetModel NumTheory Negacyclic Ntt Word FloatModel CkksFloat BasisExt BasisExtProofs Rows RlweModel KeyGenModel Galois SchemeSpec CtModel CtSpec CtProofs EncDecProofs KeySwitchModel CkksModel CkksProofs KsPool KsPoolProofs EvalPool EvalPoolProofs ShareModel PropsShare EvShare EvShareProofs EvShareAll.
Open Scope Z_scope.

(** ** A call whose steps change a part x of the state only *)
Section Sem.
  Context {T X : Type} (inj : X -> T).
  Definition sem {A} (p : proc T A) (g : X -> res (X * A)) : Prop := forall x, psol p (inj x) = ('(x', a) <- g x ;; Ok (inj x', a)).
  Lemma sem_ret {A} (a : A) : sem (Ret a) (fun x => Ok (x, a)). Proof. intros x. reflexivity. Qed.
  Lemma sem_fail {A} : sem (@Fail T A) (fun _ => Panic). Proof. intros x. reflexivity. Qed.
  Lemma sem_bind {A B} (p : proc T A) (f : A -> proc T B) g h : sem p g -> (forall a, sem (f a) (h a)) -> sem (pbind p f) (fun x => '(x, a) <- g x ;; h a x).
  Proof. intros P F x. rewrite psol_bind, P. destruct (g x) as [[x' a]|]; cbn [rbind]; [apply F|reflexivity]. Qed.
  Lemma sem_pb {A B} (r : res A) (f : A -> proc T B) h : (forall a, sem (f a) (h a)) -> sem (pbind (pres r) f) (fun x => a <- r ;; h a x).
  Proof. intros F x. rewrite psol_pb. destruct r as [a|]; cbn [rbind]; [apply F|reflexivity]. Qed.
  Lemma sem_pres {A} (r : res A) : sem (pres r) (fun x => a <- r ;; Ok (x, a)). Proof. intros x. rewrite psol_pres. destruct r; reflexivity. Qed.
  Lemma sem_act {A} (f : T -> res (T * A)) g : (forall x, f (inj x) = ('(x', a) <- g x ;; Ok (inj x', a))) -> sem (act f) g.
  Proof. intros H x. rewrite psol_act. apply H. Qed.
  Lemma sem_ab {A B} (f : T -> res (T * A)) (k : A -> proc T B) g h : (forall x, f (inj x) = ('(x', a) <- g x ;; Ok (inj x', a))) -> (forall a, sem (k a) (h a)) -> sem (pbind (act f) k) (fun x => '(x, a) <- g x ;; h a x).
  Proof. intros F. apply sem_bind. apply sem_act. exact F. Qed.
  Lemma sem_fold {A B} (f : A -> B -> proc T A) g l : (forall a b, sem (f a b) (fun x => g (x, a) b)) -> forall a, sem (pfold f l a) (fun x => rfold g l (x, a)).
  Proof.
    intros H. induction l as [|b l IH]; intros a x; cbn [pfold rfold]; [reflexivity|]. rewrite psol_bind, H. destruct (g (x, a) b) as [[x' a']|]; cbn [rbind]; [apply IH|reflexivity].
  Qed.
  Lemma sem_ext {A} (p : proc T A) g g' : (forall x, g x = g' x) -> sem p g -> sem p g'.
  Proof. intros E H x. rewrite H, E. reflexivity. Qed.
End Sem.
Lemma rfold_unit {A B} (f : A -> B -> res A) (g : A * unit -> B -> res (A * unit)) l : (forall a b, g (a, tt) b = (a <- f a b ;; Ok (a, tt))) -> forall a, rfold g l (a, tt) = (a <- rfold f l a ;; Ok (a, tt)).
Proof. intros H. induction l as [|b l IH]; intros a; cbn [rfold]; [reflexivity|]. rewrite H. destruct (f a b) as [a'|]; cbn [rbind]; [apply IH|reflexivity]. Qed.

Section K.
  Context {N : nat} (pp : rparams).
  Notation R := (R N). Notation ct := (ctT N). Notation kst := (kst N). Notation world := (world N).
  Implicit Types (w : world) (st : kst).
  Variable w0 : world.
  Notation inj := (setK w0).
  Notation ksem := (sem inj).
  Lemma setK_setK w s s' : setK (setK w s) s' = setK w s'. Proof. reflexivity. Qed.
  Lemma setK_id w : setK w (wks w) = w. Proof. destruct w; reflexivity. Qed.
  Lemma ksem_act {A} (f : world -> res (kst * A)) g : (forall st, f (inj st) = g st) -> ksem (kact f) g.
  Proof. intros H. apply sem_act. intros st. rewrite H. destruct (g st) as [[s a]|]; cbn [rbind]; reflexivity. Qed.
  Lemma ksem_kab {A B} (f : world -> res (kst * A)) (k : A -> proc world B) g h : (forall st, f (inj st) = g st) -> (forall a, ksem (k a) (h a)) -> ksem (pbind (kact f) k) (fun st => '(st, a) <- g st ;; h a st).
  Proof. intros F. apply sem_bind. apply ksem_act. exact F. Qed.
  Lemma ksem_ks {B} (f : kst -> kst) (k : unit -> proc world B) h : ksem (k tt) h -> ksem (pbind (kset f) k) (fun st => h (f st)).
  Proof. intros K. apply (sem_ext _ _ (fun st => '(st, a) <- Ok (f st, tt) ;; h st)); [reflexivity|]. unfold kset. apply (ksem_kab _ _ (fun st => Ok (f st, tt)) (fun _ => h)); [reflexivity|]. intros []. exact K. Qed.
  Lemma liftK_sem {A} (p : proc kst A) : ksem (liftK p) (fun st => psol p st).
  Proof.
    unfold sem, psol. induction p as [a| |f IH] using proc_induct; intros st; cbn [liftK prun rbind]; [reflexivity..|]. cbn [wks setK]. specialize (IH st). destruct (f st) as [s' p']. cbn [snd] in IH. apply IH.
  Qed.

  Variables (hs0 hs1 : world -> hoisted N).
  Hypothesis (H0 : forall w s, hs0 (setK w s) = hs0 w) (H1 : forall w s, hs1 (setK w s) = hs1 w).
  Lemma vecP_sem level get set sel hs op l : (forall w s, hs (setK w s) = hs w) -> ksem (vecP pp level get set sel hs l) (fun st => st <- vecSt pp level get set sel (Some (hs w0)) op (wrs w0) l st ;; Ok (st, tt)).
  Proof using.
    clear hs0 hs1 H0 H1. intros HH. unfold vecP.
    set (body := fun st id => '(st, ds) <- digSt pp level st (Some (hs w0)) op id ;; k <- rlk_get (wrs w0) id ;;
            x <- updPre (beta pp level) (fun i o => kk <- idx (sel k) i ;; d <- idx ds i ;; Ok (wrQP pp level (lvl3 pp level r_mont_add kk d o) o)) (get st) ;; Ok (set st x)).
    set (last := fun st => x <- updPre (beta pp level) (fun _ o => Ok (wrQP pp level (lvl1 pp level r_mform o) o)) (get st) ;; Ok (set st x)).
    apply (sem_ext _ _ (fun st => '(st, _) <- (st <- rfold body l st ;; Ok (st, tt)) ;; st <- last st ;; Ok (st, tt))).
    { intros st. unfold vecSt. fold body. destruct (rfold body l st) as [s|]; reflexivity. }
    apply (sem_bind _ _ _ (fun st => st <- rfold body l st ;; Ok (st, tt)) (fun _ st => st <- last st ;; Ok (st, tt))).
    - apply (sem_ext _ _ (fun st => rfold (fun '(st, _) id => st <- body st id ;; Ok (st, tt)) l (st, tt))); [intros st; apply rfold_unit; reflexivity|].
      apply sem_fold. intros [] id. apply ksem_act. intros st. unfold body. cbn [digSt]. rewrite HH. destruct (hget (hs w0) id) as [d|]; cbn [rbind]; [|reflexivity].
      cbn [wks wrs setK]. destruct (rlk_get (wrs w0) id) as [k|]; cbn [rbind]; [|reflexivity]. destruct (updPre _ _ _) as [x|]; reflexivity.
    - intros []. apply ksem_act. intros st. unfold last. cbn [wks setK]. destruct (updPre _ _ _) as [x|]; reflexivity.
  Qed.
  Lemma wks_setK w s : wks (setK w s) = s. Proof using. reflexivity. Qed.
  Lemma wrs_setK w s : wrs (setK w s) = wrs w. Proof using. reflexivity. Qed.
  Lemma psol_kab {A B} (f : world -> res (kst * A)) (k : A -> proc world B) w : psol (pbind (kact f) k) w = ('(s, a) <- f w ;; psol (k a) (setK w s)).
  Proof using. unfold kact. rewrite psol_ab. destruct (f w) as [[s a]|]; reflexivity. Qed.
  Lemma psol_kact {A} (f : world -> res (kst * A)) w : psol (kact f) w = ('(s, a) <- f w ;; Ok (setK w s, a)).
  Proof using. unfold kact. rewrite psol_act. reflexivity. Qed.
  Lemma psol_ksb {B} (f : kst -> kst) (k : unit -> proc world B) w : psol (pbind (kset f) k) w = psol (k tt) (setK w (f (wks w))).
  Proof using. unfold kset. rewrite psol_kab. reflexivity. Qed.
  (** a loop of the call against a loop of the model *)
  Lemma fold_sem {A B} (f : A -> B -> proc world A) g l : (forall a b st, psol (f a b) (inj st) = ('(s, a) <- g (st, a) b ;; Ok (inj s, a))) -> forall a st, psol (pfold f l a) (inj st) = ('(s, a) <- rfold g l (st, a) ;; Ok (inj s, a)).
  Proof using. intros H a. apply (sem_fold inj f g l). intros a' b st. apply H. Qed.
  Ltac kb := cbv beta; rewrite ?wks_setK, ?wrs_setK.
  Lemma prodP_sem level o (op0 op1 : ct) ids0 ids1 out : ksem (prodP pp level o op0 op1 ids0 ids1 out) (fun st => prodSt pp level o op0 op1 ids0 ids1 st out).
  Proof using.
    clear hs0 hs1 H0 H1. intros st. unfold prodP, prodSt. rewrite psol_pb. destruct (cgetL op0 id0 level) as [a0|]; cbn [rbind]; [|reflexivity]. cbv zeta.
    rewrite psol_ksb, setK_setK. kb. rewrite psol_pb. destruct (cgetL op1 id0 level) as [b0|]; cbn [rbind]; [|reflexivity].
    set (st1 := setq0 st _).
    rewrite !psol_ksb, !setK_setK. kb.
    set (st2 := setq1 st1 _). set (st3 := setq0 st2 _). rewrite psol_kab. kb. destruct (cwr out id0 _) as [out1|]; cbn [rbind]; [|reflexivity]. rewrite setK_setK, psol_ksb, setK_setK. kb. set (st4 := setq1 st3 _).
    rewrite psol_bind. match goal with |- context [rfold ?g (o 4%nat (keys ids0)) (st4, out1)] => rewrite (fold_sem _ g (o 4%nat (keys ids0))) end.
    2:{ intros c id s. rewrite psol_pb. destruct (cgetL op0 id level) as [p|]; cbn [rbind]; [|reflexivity]. rewrite psol_ksb, setK_setK, psol_kact. kb. destruct (cwr _ _ _) as [c'|]; cbn [rbind]; [|reflexivity]. rewrite setK_setK. reflexivity. }
    destruct (rfold _ (o 4%nat (keys ids0)) _) as [[st5 out2]|]; cbn [rbind]; [|reflexivity].
    rewrite psol_bind. match goal with |- context [rfold ?g (o 5%nat (keys ids1)) (st5, out2)] => rewrite (fold_sem _ g (o 5%nat (keys ids1))) end.
    2:{ intros c id s. rewrite psol_pb. destruct (cgetL op1 id level) as [p|]; cbn [rbind]; [|reflexivity]. rewrite psol_ksb, setK_setK, psol_kact. kb. destruct (if is_has ids0 id then _ else _) as [c'|]; cbn [rbind]; [|reflexivity]. rewrite setK_setK. reflexivity. }
    destruct (rfold _ (o 5%nat (keys ids1)) _) as [[st6 out3]|]; cbn [rbind]; [|reflexivity]. rewrite psol_pres. destruct (rfold _ _ _) as [out4|]; reflexivity.
  Qed.
  Lemma xP_sem level o (op1 : ct) ids1 out : ksem (xP pp level o hs1 ids1 out) (fun st => xSt pp level o (Some (hs1 w0)) op1 ids1 st out).
  Proof using H1.
    intros st. unfold xP, xSt. apply fold_sem. clear st out. intros c id st. rewrite psol_kab. kb. rewrite H1. cbn [ExtOpSt]. destruct (hget (hs1 w0) id) as [d|]; cbn [rbind]; [|reflexivity].
    destruct (ExtHSt pp level st d (ks1 st)) as [[st1 e]|]; cbn [rbind]; [|reflexivity]. cbv zeta. rewrite setK_setK, psol_pb. destruct (cget c id) as [q|]; cbn [rbind]; [|reflexivity]. rewrite psol_kact. kb. destruct (cwr _ _ _) as [c'|]; reflexivity.
  Qed.
  Lemma vhP_sem level o crs (op0 : ct) ids0 out : ksem (vhP pp level o crs hs0 ids0 out) (fun st => vhSt pp level o crs (wrs w0) (Some (hs0 w0)) op0 ids0 st out).
  Proof using H0.
    intros st. unfold vhP, vhSt. apply fold_sem. clear st out. intros c id st. rewrite psol_kab. kb. destruct (rlk_get (wrs w0) id) as [k|]; cbn [rbind]; [|reflexivity]. rewrite setK_setK.
    rewrite psol_kab. kb. rewrite H0. cbn [ExtOpSt]. destruct (hget (hs0 w0) id) as [d|]; cbn [rbind]; [|reflexivity]. destruct (ExtHSt pp level st d (ks2 st)) as [[st1 e]|]; cbn [rbind]; [|reflexivity]. cbv zeta. rewrite setK_setK.
    set (st2 := setq0 st1 _). rewrite psol_kab. kb. destruct (DecSt pp level st2 (kq0 st2) (ks3 st2)) as [[st3 dw]|]; cbn [rbind]; [|reflexivity]. rewrite setK_setK.
    set (st4 := sets3 st3 dw). rewrite psol_kab. kb. destruct (ExtHSt pp level st4 (ks3 st4) (rlk_v k)) as [[st5 ev]|]; cbn [rbind]; [|reflexivity]. rewrite setK_setK. set (st6 := setq1 st5 _).
    rewrite psol_pb. destruct (cget c id0) as [q0|]; cbn [rbind]; [|reflexivity]. rewrite psol_kab. kb. destruct (cwr c id0 _) as [c1|]; cbn [rbind]; [|reflexivity]. rewrite setK_setK.
    rewrite psol_pb. destruct (crs_get crs (-1)) as [u|]; cbn [rbind]; [|reflexivity]. rewrite psol_kab. kb. destruct (ExtHSt pp level st6 (ks3 st6) u) as [[st7 eu]|]; cbn [rbind]; [|reflexivity]. rewrite setK_setK.
    rewrite psol_pb. destruct (cget c1 id) as [q|]; cbn [rbind]; [|reflexivity]. rewrite psol_kact. kb. destruct (cwr c1 id _) as [c2|]; reflexivity.
  Qed.
  Lemma MulP_sem o crs (op0 op1 : ct) out : ksem (MulP pp o crs op0 op1 hs0 hs1 out) (fun st => MulSt true pp o crs st op0 op1 (Some (hs0 w0)) (Some (hs1 w0)) (wrs w0) out).
  Proof using H0 H1.
    intros st. unfold MulP, MulSt. rewrite psol_pb. destruct (ctLevel out) as [level|]; cbn [rbind]; [|reflexivity]. rewrite psol_pb. destruct (ctLevel op0) as [l0|]; cbn [rbind]; [|reflexivity].
    destruct (l0 <? level)%nat; [reflexivity|]. rewrite psol_pb. destruct (IDSetOf (o 0%nat) op0) as [ids0|]; cbn [rbind]; [|reflexivity]. rewrite psol_pb. destruct (IDSetOf (o 1%nat) op1) as [ids1|]; cbn [rbind]; [|reflexivity].
    rewrite psol_kab. kb. destruct (zeroSt pp level (ks1 st)) as [x|]; cbn [rbind]; [|reflexivity]. rewrite setK_setK, psol_kab. kb. change (ks2 (sets1 st x)) with (ks2 st). destruct (zeroSt pp level (ks2 st)) as [y|]; cbn [rbind]; [|reflexivity]. rewrite setK_setK. cbv zeta.
    rewrite psol_bind, (vecP_sem level ks1 sets1 rlk_d hs0 op0 _ H0). destruct (vecSt pp level ks1 sets1 rlk_d _ op0 _ _ _) as [s1|]; cbn [rbind]; [|reflexivity].
    rewrite psol_bind, (vecP_sem level ks2 sets2 rlk_b hs1 op1 _ H1). destruct (vecSt pp level ks2 sets2 rlk_b _ op1 _ _ _) as [s2|]; cbn [rbind]; [|reflexivity].
    rewrite psol_bind, prodP_sem. destruct (prodSt _ _ _ _ _ _ _ _ _) as [[s3 out1]|]; cbn [rbind]; [|reflexivity].
    rewrite psol_bind, (xP_sem level o op1). destruct (xSt _ _ _ _ _ _ _ _) as [[s4 out2]|]; cbn [rbind]; [|reflexivity]. apply (vhP_sem level o crs op0).
  Qed.
  Lemma MulRelinHoistedNewP_sem o crs pscale (c0 c1 : ckct N) : ksem (MulRelinHoistedNewP pp o crs pscale c0 c1 hs0 hs1) (fun st => MulRelinHoistedNewSt pp o crs pscale st c0 c1 (Some (hs0 w0)) (Some (hs1 w0)) (wrs w0)).
  Proof using H0 H1.
    intros st. unfold MulRelinHoistedNewP, MulRelinHoistedNewSt, MulAndRelinHoistedSt. rewrite psol_pb. destruct (newCiphertextBinary o c0 c1) as [out|]; cbn [rbind]; [|reflexivity]. cbv zeta.
    rewrite psol_pb. destruct (ctLevel (cv c0)) as [l0|]; cbn [rbind]; [|reflexivity]. rewrite psol_pb. destruct (ctLevel (cv c1)) as [l1|]; cbn [rbind]; [|reflexivity]. rewrite psol_pb. destruct (ctLevel _) as [lo|]; cbn [rbind]; [|reflexivity].
    rewrite psol_pb. destruct (if (_ <? lo)%nat then _ else _) as [out1|]; cbn [rbind]; [|reflexivity]. rewrite psol_bind, MulP_sem. destruct (MulSt _ _ _ _ _ _ _ _ _ _ _) as [[s v]|]; cbn [rbind]; [|reflexivity].
    rewrite psol_pres. destruct (Rescale _ _ _ _ _) as [[r b]|]; reflexivity.
  Qed.
End K.
Ltac kb := cbv beta; rewrite ?wks_setK, ?wrs_setK.

Section Calls.
  Context {N : nat} (pp : rparams).
  Notation R := (R N). Notation ct := (ctT N). Notation kst := (kst N). Notation world := (world N).
  Implicit Types (w : world) (st : kst).
  Definition setKH (second : bool) w (x : kst * hoisted N) : world := setH second (setK w (fst x)) (snd x).
  Lemma hoistP_sol (o : list string -> list string) second (c : ckct N) ids w : psol (hoistP pp o second c ids) w = ('(st, h) <- hoistIntoSt pp o (wks w) (hpool second w) c ids ;; Ok (setKH second w (st, h), tt)).
  Proof.
    assert (E : w = setKH second w (wks w, hpool second w)) by (destruct w, second; reflexivity). rewrite E at 1.
    assert (S : sem (setKH second w) (hoistP pp o second c ids) (fun '(st, h) => '(st, h) <- hoistIntoSt pp o st h c ids ;; Ok ((st, h), tt))).
    2:{ rewrite S. destruct (hoistIntoSt _ _ _ _ _ _) as [[st h]|]; reflexivity. }
    intros [st h]. unfold hoistP, hoistIntoSt. rewrite psol_pb. destruct (ctLevel (cv c)) as [level|]; cbn [rbind]; [|reflexivity].
    match goal with |- context [rfold ?b (o (keys ids)) (st, h)] => set (body := b) end.
    rewrite (sem_fold (setKH second w) _ (fun '(x, _) id => x <- body x id ;; Ok (x, tt)) (o (keys ids))).
    - rewrite (rfold_unit body) by (intros [s hp] id; reflexivity). destruct (rfold body (o (keys ids)) (st, h)) as [[s hp]|]; reflexivity.
    - intros [] id [s hp]. rewrite psol_pb. unfold body. destruct (cgetL (cv c) id level) as [p|]; cbn [rbind]; [|reflexivity]. rewrite psol_act.
      replace (hpool second (setKH second w (s, hp))) with hp by (destruct second; reflexivity). replace (wks (setKH second w (s, hp))) with s by (destruct second; reflexivity).
      destruct (hget hp id) as [b|]; cbn [rbind]; [|reflexivity]. destruct (DecSt pp level s p b) as [[s' d]|]; cbn [rbind]; [|reflexivity]. destruct second; reflexivity.
  Qed.
  Lemma MulRelinHoistedNewP_sol o crs pscale (c0 c1 : ckct N) hs0 hs1 w : (forall w s, hs0 (setK w s) = hs0 w) -> (forall w s, hs1 (setK w s) = hs1 w) ->
    psol (MulRelinHoistedNewP pp o crs pscale c0 c1 hs0 hs1) w = ('(st, c) <- MulRelinHoistedNewSt pp o crs pscale (wks w) c0 c1 (Some (hs0 w)) (Some (hs1 w)) (wrs w) ;; Ok (setK w st, c)).
  Proof. intros H0 H1. rewrite <- (setK_id w) at 1. rewrite (MulRelinHoistedNewP_sem pp w hs0 hs1 H0 H1). reflexivity. Qed.
  Lemma MulRelinNewP_sol o crs pscale (c0 c1 : ckct N) same w :
    psol (MulRelinNewP pp o crs pscale c0 c1 same) w = ('(ks, h0, h1, c) <- MulRelinNewSt pp o crs pscale (wks w) (wh0 w) (wh1 w) c0 c1 same (wrs w) ;; Ok (W ks (wev w) (wrs w) h0 h1, c)).
  Proof.
    unfold MulRelinNewP, MulRelinNewSt. rewrite psol_pb. destruct (IDSetOf (o 60%nat) (cv c0)) as [ids0|]; cbn [rbind]; [|reflexivity]. destruct same.
    - rewrite psol_bind, hoistP_sol. cbn [hpool]. destruct (hoistIntoSt _ _ _ _ _ _) as [[st h]|]; cbn [rbind]; [|reflexivity].
      rewrite MulRelinHoistedNewP_sol by reflexivity. cbn [wks wrs setKH setH setK hpool fst snd wh0]. destruct (MulRelinHoistedNewSt _ _ _ _ _ _ _ _ _ _) as [[s c]|]; reflexivity.
    - rewrite psol_pb. destruct (IDSetOf (o 62%nat) (cv c1)) as [ids1|]; cbn [rbind]; [|reflexivity].
      rewrite psol_bind, hoistP_sol. cbn [hpool]. destruct (hoistIntoSt _ _ _ _ _ ids0) as [[st h]|]; cbn [rbind]; [|reflexivity].
      rewrite psol_bind, hoistP_sol. cbn [hpool setKH setH setK wks wh1 fst snd]. destruct (hoistIntoSt _ _ _ _ _ ids1) as [[st' h']|]; cbn [rbind]; [|reflexivity].
      rewrite MulRelinHoistedNewP_sol by reflexivity. cbn [wks wrs setKH setH setK hpool fst snd wh0 wh1]. destruct (MulRelinHoistedNewSt _ _ _ _ _ _ _ _ _ _) as [[s c]|]; reflexivity.
  Qed.
  Lemma HoistedFormP_sol o (c : ckct N) w : psol (HoistedFormP pp o c) w = ('(st, h) <- HoistedFormSt pp o (wks w) c ;; Ok (setK w st, h)).
  Proof.
    rewrite <- (setK_id w) at 1. unfold HoistedFormP, HoistedFormSt. rewrite psol_pb. destruct (IDSetOf _ _) as [ids|]; cbn [rbind]; [|reflexivity]. rewrite psol_pb. destruct (ctLevel (cv c)) as [level|]; cbn [rbind]; [|reflexivity].
    apply fold_sem. intros h id st. rewrite psol_pb. destruct (cgetL (cv c) id level) as [p|]; cbn [rbind]; [|reflexivity]. rewrite psol_kact. kb. destruct (DecSt _ _ _ _ _) as [[s d]|]; reflexivity.
  Qed.
  Lemma liftK_sol {A} (p : proc kst A) w : psol (liftK p) w = ('(st, a) <- psol p (wks w) ;; Ok (setK w st, a)).
  Proof. rewrite <- (setK_id w) at 1. apply liftK_sem. Qed.

  (** *** the Evaluator's own pools *)
  Lemma setV_setV w (e e' : evalst N) : setV (setV w e) e' = setV w e'. Proof. reflexivity. Qed.
  Lemma setV_id w : setV w (wev w) = w. Proof. destruct w; reflexivity. Qed.
  Lemma wev_setV w (e : evalst N) : wev (setV w e) = e. Proof. reflexivity. Qed.
  Lemma psol_vab {A B} (f : evalst N -> res (evalst N * A)) (k : A -> proc world B) w : psol (pbind (vact f) k) w = ('(e, a) <- f (wev w) ;; psol (k a) (setV w e)).
  Proof. unfold vact. rewrite psol_ab. destruct (f (wev w)) as [[s a]|]; reflexivity. Qed.
  Lemma psol_vact {A} (f : evalst N -> res (evalst N * A)) w : psol (vact f) w = ('(e, a) <- f (wev w) ;; Ok (setV w e, a)).
  Proof. unfold vact. rewrite psol_act. reflexivity. Qed.
  Lemma vfold_sem {A B} (w0 : world) (f : A -> B -> proc world A) g l : (forall a b (e : evalst N), psol (f a b) (setV w0 e) = ('(s, a) <- g (e, a) b ;; Ok (setV w0 s, a))) ->
    forall a (e : evalst N), psol (pfold f l a) (setV w0 e) = ('(s, a) <- rfold g l (e, a) ;; Ok (setV w0 s, a)).
  Proof. intros H a. apply (sem_fold (setV w0) f g l). intros a' b e. apply H. Qed.
  (** a loop that only reads the pools *)
  Lemma rfold_const {A B S} (e : S) (f : A -> B -> res A) (g : S * A -> B -> res (S * A)) l : (forall a b, g (e, a) b = (a <- f a b ;; Ok (e, a))) -> forall a, rfold g l (e, a) = (a <- rfold f l a ;; Ok (e, a)).
  Proof. intros H. induction l as [|b l IH]; intros a; cbn [rfold]; [reflexivity|]. rewrite H. destruct (f a b) as [a'|]; cbn [rbind]; [apply IH|reflexivity]. Qed.
  Lemma vread_sol {A B} (w0 : world) (e : evalst N) (f : A -> B -> proc world A) (g : A -> B -> res A) l : (forall a b, psol (f a b) (setV w0 e) = (a <- g a b ;; Ok (setV w0 e, a))) ->
    forall a, psol (pfold f l a) (setV w0 e) = (a <- rfold g l a ;; Ok (setV w0 e, a)).
  Proof. intros H. induction l as [|b l IH]; intros a; cbn [pfold rfold]; [reflexivity|]. rewrite psol_bind, H. destruct (g a b) as [a'|]; cbn [rbind]; [apply IH|reflexivity]. Qed.
  Lemma wrLvl_twice level f g (x old : list R) q : wrLvl level (lvlQ1 pp level f x) old = Ok q -> wrLvl level (lvlQ1 pp level g q) q = wrLvl level (lvlQ1 pp level g (lvlQ1 pp level f x)) old.
  Proof.
    unfold wrLvl. destruct (Nat.leb_spec (length old) level) as [|L]; [discriminate|]. intros E. assert (Q : firstn (S level) (lvlQ1 pp level f x) ++ skipn (S level) old = q) by congruence. clear E.
    assert (LF : length (firstn (S level) (lvlQ1 pp level f x)) = S level) by (rewrite firstn_length, lvlQ1_len; lia).
    assert (LQ : length q = length old) by (rewrite <- Q, app_length, LF, skipn_length; lia). rewrite LQ. destruct (Nat.leb_spec (length old) level); [lia|].
    assert (EQ : eqQ level q (lvlQ1 pp level f x)).
    { intros j Hj. rewrite <- Q. rewrite row_app1 by lia. rewrite firstn_all2 by (rewrite lvlQ1_len; lia). reflexivity. }
    rewrite (lvlQ1_ext pp level g _ _ EQ). f_equal. f_equal. rewrite <- Q. rewrite skipn_app, skipn_all2 by lia. rewrite LF, Nat.sub_diag. reflexivity.
  Qed.
  Lemma MulPtxtNewP_sol o pscale (c : ckct N) pt ps w : psol (MulPtxtNewP pp o pscale c pt ps) w = ('(e, c) <- MulPtxtNew pp o pscale (wev w) c pt ps ;; Ok (setV w e, c)).
  Proof.
    unfold MulPtxtNewP, MulPtxtNew. rewrite psol_pb. destruct (IDSetOf _ _) as [ids|]; cbn [rbind]; [|reflexivity]. rewrite psol_pb. destruct (ctLevel _) as [level|]; cbn [rbind]; [|reflexivity]. cbv zeta.
    destruct (length (prows pt) <=? level)%nat; [reflexivity|]. rewrite psol_vab. destruct (wrLvl level (lvlQ1 pp level ntt (prows pt)) (polyQPool (wev w))) as [q|] eqn:EQ; cbn [rbind].
    2:{ revert EQ. unfold wrLvl. destruct (length (polyQPool (wev w)) <=? level)%nat; [reflexivity|discriminate]. }
    rewrite psol_vab, wev_setV. cbn [polyQPool ctxtPool]. rewrite (wrLvl_twice level ntt r_mform _ _ q EQ). destruct (wrLvl level (lvlQ1 pp level r_mform _) (polyQPool (wev w))) as [q'|]; cbn [rbind]; [|reflexivity]. rewrite setV_setV, psol_bind.
    match goal with |- context [rfold ?g (o 2%nat _) _] => rewrite (vread_sol w (EV (ctxtPool (wev w)) q') _ g) end.
    - destruct (rfold _ (o 2%nat _) _) as [v|]; cbn [rbind]; [|reflexivity]. rewrite psol_pres. destruct (Rescale _ _ _ _ _) as [[r b]|]; reflexivity.
    - intros v id. rewrite psol_pb. destruct (cgetL _ id level) as [p|]; cbn [rbind]; [|reflexivity]. rewrite psol_pb. destruct (cget v id) as [q1|]; cbn [rbind]; [|reflexivity]. rewrite psol_vact. reflexivity.
  Qed.
  Lemma multP_sol (o : list string -> list string) (c0 : ckct N) k s w : psol (multP pp o c0 k) w = (p <- MultByConst pp o c0 k (CK (ctxtPool (wev w)) s) ;; Ok (setV w (EV (cv p) (polyQPool (wev w))), tt)).
  Proof.
    unfold multP, MultByConst. rewrite psol_pb. destruct (ctLevel (cv c0)) as [l0|]; cbn [rbind]; [|reflexivity]. rewrite psol_vab. cbn [cv]. destruct (ctLevel (ctxtPool (wev w))) as [lo|]; cbn [rbind]; [|reflexivity]. cbv zeta.
    destruct (getConstAndScale pp (Nat.min l0 lo) k) as [[cR cI] scale]. rewrite psol_pb. destruct (rmapM _ _) as [cs|]; cbn [rbind]; [|reflexivity].
    match goal with |- context [rfold ?b (o (keys (cv c0))) _] => set (body := b) end.
    rewrite (vfold_sem w _ (fun '(e, _) id => v <- body (ctxtPool e) id ;; Ok (EV v (polyQPool e), tt))).
    - set (bd := fun '(e, _) id => v <- body (ctxtPool e) id ;; Ok (EV v (polyQPool e), tt)).
      assert (F : forall l pool q, rfold bd l (EV pool q, tt) = (v <- rfold body l pool ;; Ok (EV v q, tt))).
      { induction l as [|x l IH]; intros pool q; cbn [rfold]; [reflexivity|]. change (bd (EV pool q, tt) x) with (v <- body pool x ;; Ok (EV v q, tt)). destruct (body pool x) as [v|]; cbn [rbind]; [apply IH|reflexivity]. }
      destruct (wev w) as [pool q]. cbn [ctxtPool polyQPool]. rewrite F. destruct (rfold body _ pool) as [v|]; reflexivity.
    - intros [] id e. rewrite psol_pb. unfold body. destruct (cgetL (cv c0) id _) as [p0|]; cbn [rbind]; [|reflexivity]. rewrite psol_vact, wev_setV. destruct (cget _ id) as [p1|]; cbn [rbind]; [|reflexivity]. destruct (wrLvl _ _ _) as [r|]; reflexivity.
  Qed.
  Lemma evalP_sol (o : order) (c0 c1 out : ckct N) ev w : psol (evalP pp o c0 c1 out ev) w = ('(e, c) <- evaluateInPlace pp o (wev w) c0 c1 out ev ;; Ok (setV w e, c)).
  Proof.
    unfold evalP, evaluateInPlace. rewrite psol_pb. destruct (IDSetOf (o 0%nat) (cv c0)) as [ids0|]; cbn [rbind]; [|reflexivity]. rewrite psol_pb. destruct (IDSetOf (o 1%nat) (cv c1)) as [ids1|]; cbn [rbind]; [|reflexivity].
    rewrite psol_pb. destruct (is_union o 2%nat ids0 ids1) as [ids|]; cbn [rbind]; [|reflexivity]. rewrite psol_vab. destruct (PadCiphertext _ (ctxtPool (wev w)) ids) as [pool|]; cbn [rbind]; [|reflexivity].
    rewrite psol_pb. destruct (ctLevel (cv c0)) as [l0|]; cbn [rbind]; [|reflexivity]. rewrite psol_pb. destruct (ctLevel (cv c1)) as [l1|]; cbn [rbind]; [|reflexivity]. rewrite psol_pb. destruct (ctLevel (cv out)) as [lo|]; cbn [rbind]; [|reflexivity]. cbv zeta.
    set (level := Nat.min (Nat.min l0 l1) lo). rewrite psol_pb. match goal with |- context [rbind (if (level <? lo)%nat then ?a else ?b) _] => destruct (if (level <? lo)%nat then a else b) as [out1|] end; cbn [rbind]; [|reflexivity].
    set (r10 := f_floor (f_div (csc c1) (csc c0))). set (r01 := f_floor (f_div (csc c0) (csc c1))). set (q := polyQPool (wev w)).
    assert (REST : forall t pl, psol (
        v <~ vact (fun e => a0 <- cgetL (if fst t : bool then ctxtPool e else cv c0) id0 level ;; b0 <- cgetL (if snd t : bool then ctxtPool e else cv c1) id0 level ;; p <- cget (cv out1) id0 ;;
               rows <- wrLvl level (lvlQ2 pp level ev (prows a0) (prows b0)) (prows p) ;; Ok (e, cset (cv out1) id0 (Pol rows (pntt p)))) ;;
        idso <~ pres (IDSetOf (o 6%nat) v) ;;
        v <~ pfold (fun v id => vact (fun e =>
           v <- (p <- cget v id ;;
           if negb (is_has ids0 id) then
             q <- cgetL (if snd t : bool then ctxtPool e else cv c1) id level ;; rows <- wrLvl level (prows q) (prows p) ;; Ok (cset v id (Pol rows (pntt p)))
           else if negb (is_has ids1 id) then
             q <- cgetL (if fst t : bool then ctxtPool e else cv c0) id level ;; rows <- wrLvl level (prows q) (prows p) ;; Ok (cset v id (Pol rows (pntt p)))
           else
             a <- cgetL (if fst t : bool then ctxtPool e else cv c0) id level ;; b <- cgetL (if snd t : bool then ctxtPool e else cv c1) id level ;;
             rows <- wrLvl level (lvlQ2 pp level ev (prows a) (prows b)) (prows p) ;; Ok (cset v id (Pol rows (pntt p)))) ;;
           Ok (e, v))) (o 7%nat (keys idso)) v ;;
        Ret (CK v (csc out1))) (setV w (EV pl q)) =
      ('(e, c) <- (let tmp0 := if fst t : bool then pl else cv c0 in let tmp1 := if snd t : bool then pl else cv c1 in
        a0 <- cgetL tmp0 id0 level ;; b0 <- cgetL tmp1 id0 level ;; p <- cget (cv out1) id0 ;;
        rows <- wrLvl level (lvlQ2 pp level ev (prows a0) (prows b0)) (prows p) ;;
        let v := cset (cv out1) id0 (Pol rows (pntt p)) in
        idso <- IDSetOf (o 6%nat) v ;;
        v <- rfold (fun v id =>
           p <- cget v id ;;
           if negb (is_has ids0 id) then
             q <- cgetL tmp1 id level ;; rows <- wrLvl level (prows q) (prows p) ;; Ok (cset v id (Pol rows (pntt p)))
           else if negb (is_has ids1 id) then
             q <- cgetL tmp0 id level ;; rows <- wrLvl level (prows q) (prows p) ;; Ok (cset v id (Pol rows (pntt p)))
           else
             a <- cgetL tmp0 id level ;; b <- cgetL tmp1 id level ;;
             rows <- wrLvl level (lvlQ2 pp level ev (prows a) (prows b)) (prows p) ;; Ok (cset v id (Pol rows (pntt p))))
         (o 7%nat (keys idso)) v ;;
        Ok (EV pl q, CK v (csc out1))) ;; Ok (setV w e, c))).
    { intros t pl. cbv zeta. rewrite psol_vab, wev_setV. cbn [ctxtPool]. set (tmp0 := if fst t then pl else cv c0). set (tmp1 := if snd t then pl else cv c1).
      destruct (cgetL tmp0 id0 level) as [a0|]; cbn [rbind]; [|reflexivity]. destruct (cgetL tmp1 id0 level) as [b0|]; cbn [rbind]; [|reflexivity]. destruct (cget (cv out1) id0) as [p|]; cbn [rbind]; [|reflexivity].
      destruct (wrLvl level _ (prows p)) as [rows|]; cbn [rbind]; [|reflexivity]. rewrite setV_setV, psol_pb. destruct (IDSetOf (o 6%nat) _) as [idso|]; cbn [rbind]; [|reflexivity]. rewrite psol_bind.
      match goal with |- context [rfold ?g (o 7%nat _) _] => rewrite (vread_sol w (EV pl q) _ g) end.
      - destruct (rfold _ (o 7%nat _) _) as [v|]; cbn [rbind]; [|reflexivity]. rewrite psol_ret. reflexivity.
      - intros v id. rewrite psol_vact, wev_setV. cbn [ctxtPool]. fold tmp0 tmp1. match goal with |- rbind (rbind ?r _) _ = _ => destruct r as [v'|] end; reflexivity. }
    destruct (f_gt (csc c1) (csc c0) && f_gt r10 f_one); [|destruct (f_gt (csc c0) (csc c1) && f_gt r01 f_one)].
    - rewrite !psol_bind, (multP_sol (o 5%nat) c0 (CFloat r10) (csc out1)), wev_setV. cbn [ctxtPool]. destruct (MultByConst pp (o 5%nat) c0 _ _) as [p|]; cbn [rbind]; [|reflexivity]. rewrite setV_setV, psol_ret. cbn [rbind]. apply (REST (true, false)).
    - rewrite !psol_bind, (multP_sol (o 5%nat) c1 (CFloat r01) (csc out1)), wev_setV. cbn [ctxtPool]. destruct (MultByConst pp (o 5%nat) c1 _ _) as [p|]; cbn [rbind]; [|reflexivity]. rewrite setV_setV, psol_ret. cbn [rbind]. apply (REST (false, true)).
    - rewrite psol_bind, psol_ret. cbn [rbind]. apply (REST (false, false)).
  Qed.
  Lemma AddNewP_sol o (c0 c1 : ckct N) w : psol (AddNewP pp o c0 c1) w = ('(e, c) <- AddNew pp o (wev w) c0 c1 ;; Ok (setV w e, c)).
  Proof. unfold AddNewP, AddNew. rewrite psol_pb. destruct (newCiphertextBinary o c0 c1) as [out|]; cbn [rbind]; [|reflexivity]. apply evalP_sol. Qed.
  Lemma SubNewP_sol o (c0 c1 : ckct N) w : psol (SubNewP pp o c0 c1) w = ('(e, c) <- SubNew pp o (wev w) c0 c1 ;; Ok (setV w e, c)).
  Proof.
    unfold SubNewP, SubNew. rewrite psol_pb. destruct (newCiphertextBinary o c0 c1) as [out|]; cbn [rbind]; [|reflexivity]. rewrite psol_bind, evalP_sol. destruct (evaluateInPlace _ _ _ _ _ _ _) as [[e out1]|]; cbn [rbind]; [|reflexivity].
    rewrite psol_pres. destruct (ctLevel (cv c0)) as [l0|]; cbn [rbind]; [|reflexivity]. destruct (ctLevel (cv c1)) as [l1|]; cbn [rbind]; [|reflexivity]. destruct (ctLevel (cv out1)) as [lo|]; cbn [rbind]; [|reflexivity]. cbv zeta.
    destruct (IDSetOf (o 30%nat) _) as [i0|]; cbn [rbind]; [|reflexivity]. destruct (IDSetOf (o 31%nat) _) as [i1|]; cbn [rbind]; [|reflexivity]. destruct (rfold _ _ _) as [v|]; reflexivity.
  Qed.
End Calls.

(** ** A call alone is the sequential model *)
Definition opOf {N} (e : mcall N) : evop N :=
  match e with
  | MAdd c0 c1 => EAdd c0 c1 | MSub c0 c1 => ESub c0 c1 | MMulPtxt c pt s => EMulPtxt c pt s | MMul c0 c1 same => EMul c0 c1 same | MMulHoisted c0 c1 => EMulHoisted c0 c1
  | MRot c k rk => ERot c k rk | MRotHoisted c k rk => ERotHoisted c k rk | MConj c ck => EConj c ck
  end.
Lemma mcode_sol {N} pp crs pscale (o : nat -> order) (e : mcall N) w : ('(w', c) <- psol (mcode pp crs pscale o e) w ;; Ok (w', Some c)) = call pp crs pscale o w (opOf e).
Proof.
  destruct e as [c0 c1|c0 c1|c pt s|c0 c1 same|c0 c1|c k rk|c k rk|c ck]; cbn [mcode opOf call].
  - rewrite AddNewP_sol. destruct (AddNew _ _ _ _ _) as [[e c]|]; reflexivity.
  - rewrite SubNewP_sol. destruct (SubNew _ _ _ _ _) as [[e c]|]; reflexivity.
  - rewrite MulPtxtNewP_sol. destruct (MulPtxtNew _ _ _ _ _ _ _) as [[e c']|]; reflexivity.
  - rewrite MulRelinNewP_sol. destruct (MulRelinNewSt _ _ _ _ _ _ _ _ _ _ _) as [[[[ks h0] h1] c]|]; reflexivity.
  - rewrite psol_bind, HoistedFormP_sol. destruct (HoistedFormSt pp (o 1%nat) (wks w) c0) as [[k0 h0]|]; cbn [rbind]; [|reflexivity]. rewrite psol_bind, HoistedFormP_sol, wks_setK. destruct (HoistedFormSt pp (o 2%nat) k0 c1) as [[k1 h1]|]; cbn [rbind]; [|reflexivity].
    rewrite MulRelinHoistedNewP_sol by reflexivity. rewrite wks_setK, !wrs_setK. destruct (MulRelinHoistedNewSt _ _ _ _ _ _ _ _ _ _) as [[k2 c]|]; reflexivity.
  - rewrite liftK_sol, RotateNewP_sol. destruct (RotateNewSt _ _ _ _ _ _ _) as [[k2 c']|]; reflexivity.
  - rewrite psol_bind, HoistedFormP_sol. destruct (HoistedFormSt pp (o 1%nat) (wks w) c) as [[k0 h0]|]; cbn [rbind]; [|reflexivity]. rewrite liftK_sol, wks_setK, RotateHoistedNewP_sol. destruct (RotateHoistedNewSt _ _ _ _ _ _ _ _) as [[k2 c']|]; reflexivity.
  - rewrite liftK_sol, ConjugateNewP_sol. destruct (ConjugateNewSt _ _ _ _ _ _) as [[k2 c']|]; reflexivity.
Qed.
