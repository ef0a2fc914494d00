(** C74 for whole programs over the mkbfv evaluator: two runs with any iteration orders in any loop of any call leave the same ciphertexts in every register.
    Programs are those of C47 (BfvCircuit.v). *)
From Flocq Require Import Core BinarySingleNaN.
From Coq Require Import Znumtheory Setoid Morphisms Reals Lra Permutation.
From Verif Require Import Base IdSetModel IdSetSpec IdSetProofs KeySetModel NumTheory Negacyclic Ntt Word BasisExt BasisExtProofs DecompProofs BasisSpec Rows RlweModel KeyGenModel SchemeSpec ExtProd ExtProps Galois KeyGenProofs Instance CtModel CtSpec CtProofs EncDecProofs EncMsgModel PropsEnc KeySwitchModel Digits KsLoops RotProofs ConjProofs MulProofs PropsKeySwitch PropsRotate BfvModel PropsBfv BfvMulModel BfvConv BfvGadget BfvDig BfvKey BfvCross BfvMulProofs PropsBfvConv PropsBfvMul PropsBfvMulEx BfvCircuit PropsBfvCircuit PropsBfvCircuitEx PropsSum Determ DetermOps DetermMul PropsDeterm DetermLin PropsDetermLin PropsDetermBfv PropsDetermProg.
Open Scope Z_scope.

Definition sameBRegs {N} (cs cs' : list (ctT N)) : Prop := Forall2 sameCt cs cs'.

Section Prog.
  Context {N : nat} (b : bparams) (WB : wfb N b) (HD : (length (bQ b) mod alpha (ppQ b) = 0)%nat).
  Notation pp := (ppQ b). Notation L := (maxLevel (ppQ b)).
  Variables (crs : crsT N) (rs : brlkset N) (rk : rotset N) (ck : conjset N) (s r : string -> R N) (B T : Z) (P : list string).

  Lemma bcall_same (o o' : nat -> IdSetModel.order) (cs cs' : list (ctT N)) i : (forall n, order_ok (o n)) -> (forall n, order_ok (o' n)) -> bready b crs rs rk ck s r B T P i -> sameBRegs cs cs' ->
    (forall a c, nth_error cs a = Some c -> wfct pp L false c /\ incl (parties c) P) -> (forall a c, nth_error cs' a = Some c -> mwf c) ->
    sameRes sameCt (bcall b crs rs rk ck o cs i) (bcall b crs rs rk ck o' cs' i).
  Proof.
    intros O O' RD SR HR HM. pose proof (wf_ppQ b WB) as WF.
    assert (G : forall a (f f' : ctT N -> res (ctT N)), (forall x y, nth_error cs a = Some x -> nth_error cs' a = Some y -> sameCt x y -> sameRes sameCt (f x) (f' y)) -> sameRes sameCt (x <- BasisExt.idx cs a ;; f x) (y <- BasisExt.idx cs' a ;; f' y)).
    { intros a f f' K. pose proof (F2_nth sameCt cs cs' a SR) as H. unfold BasisExt.idx. destruct (nth_error cs a) as [x|], (nth_error cs' a) as [y|]; cbn [rbind]; try contradiction; [apply K; trivial|exact I]. }
    destruct i as [i j|i j|i j|i k|i]; cbn [bcall bready] in *; (apply G; intros x x' I1 I2 SX).
    - apply G; intros y y' J1 J2 SY. exact (proj1 (C74_bfv_add_sub N pp (o 0%nat) (o' 0%nat) x x' y y' (O _) (O' _) SX SY)).
    - apply G; intros y y' J1 J2 SY. exact (proj2 (C74_bfv_add_sub N pp (o 0%nat) (o' 0%nat) x x' y y' (O _) (O' _) SX SY)).
    - apply G; intros y y' J1 J2 SY. destruct (HR _ _ I1) as [W0 P0]. destruct (HR _ _ J1) as [W1 P1]. destruct RD as (a1 & a2 & u & GA & GB & GU & CU & HK).
      destruct (C74_bfv_mul N b (o 0%nat) (o' 0%nat) crs x x' y y' rs s r B T WB HD (O _) (O' _) W0 W1 (HM _ _ I2) (HM _ _ J2) SX SY) as (v & v' & E & E' & S).
      { exists a1, a2, u. split; [exact GA|]. split; [exact GB|]. split; [exact GU|]. split; [exact CU|]. intros id [H|H]; apply HK; [apply P0|apply P1]; exact H. }
      rewrite E, E'. exact S.
    - destruct (HR _ _ I1) as [W0 P0]. exact (proj1 (C74_bfv_rotate_conjugate N pp o o' crs x x' k rk ck false WF O O' W0 (HM _ _ I2) SX)).
    - destruct (HR _ _ I1) as [W0 P0]. exact (proj2 (C74_bfv_rotate_conjugate N pp o o' crs x x' 0 rk ck false WF O O' W0 (HM _ _ I2) SX)).
  Qed.

  Lemma brun_same (w w' : nat -> nat -> IdSetModel.order) : (forall n m, order_ok (w n m)) -> (forall n m, order_ok (w' n m)) -> forall prog n n' (regs regs' : list (ctT N)) ids ms Vs, Forall (bready b crs rs rk ck s r B T P) prog -> bvalid (length regs) prog ->
    length ids = length regs -> length ms = length regs -> length Vs = length regs -> sameBRegs regs regs' ->
    (forall a, (a < length regs)%nat -> breg b s P (nth a regs nil) (nth a ids nil) (nth a ms R0) (nth a Vs 0)) ->
    (forall a, (a < length regs)%nat -> breg b s P (nth a regs' nil) (nth a ids nil) (nth a ms R0) (nth a Vs 0)) ->
    exists r1 r1', brun b crs rs rk ck w n prog regs = Ok r1 /\ brun b crs rs rk ck w' n' prog regs' = Ok r1' /\ sameBRegs r1 r1'.
  Proof.
    intros O O'. induction prog as [|i prog IH]; intros n n' regs regs' ids ms Vs F V L1 L2 L3 SR H H'; cbn [brun].
    - exists regs, regs'. split; [reflexivity|]. split; [reflexivity|exact SR].
    - inversion F as [|? ? F1 F2]; subst. destruct V as [V1 V2]. assert (LE : length regs = length regs') by (clear - SR; induction SR; cbn; congruence).
      destruct (bcall_ok b WB HD crs rs rk ck s r B T P (w n) i regs ids ms Vs (O n) F1 V1 H) as (c & C1 & C2).
      destruct (bcall_ok b WB HD crs rs rk ck s r B T P (w' n') i regs' ids ms Vs (O' n') F1) as (c' & C1' & C2'); [intros a Ha; rewrite <- LE; apply V1; exact Ha|rewrite <- LE; exact H'|].
      assert (NE : forall l : list (ctT N), length regs = length l -> (forall a, (a < length regs)%nat -> breg b s P (nth a l nil) (nth a ids nil) (nth a ms R0) (nth a Vs 0)) -> forall a d, nth_error l a = Some d -> wfct pp L false d /\ incl (parties d) P).
      { intros l E K a d Hd. assert (Ha : (a < length regs)%nat) by (rewrite E; apply nth_error_Some; congruence). specialize (K a Ha). rewrite (nth_error_nth l a nil Hd) in K. destruct K as (K1 & K2 & _ & K4 & _). split; [exact K1|]. intros x Hx. apply K4, K2. exact Hx. }
      pose proof (bcall_same (w n) (w' n') regs regs' i (O n) (O' n') F1 SR (NE regs eq_refl H) ltac:(intros a d Hd; apply (NE regs' LE H' a d Hd))) as X. rewrite C1, C1' in X. cbn [sameRes] in X. rewrite C1, C1'. cbn [rbind].
      assert (Y : forall (l : list (ctT N)) d, length regs = length l -> breg b s P d (bids i ids) (bplain i ms) (bnoise b crs B T i ids Vs) -> (forall a, (a < length regs)%nat -> breg b s P (nth a l nil) (nth a ids nil) (nth a ms R0) (nth a Vs 0)) ->
        forall a, (a < length (regs ++ [c]))%nat -> breg b s P (nth a (l ++ [d]) nil) (nth a (ids ++ [bids i ids]) nil) (nth a (ms ++ [bplain i ms]) R0) (nth a (Vs ++ [bnoise b crs B T i ids Vs]) 0)).
      { intros l d E KD K a Ha. rewrite app_length in Ha. cbn [length] in Ha. rewrite !nth_snoc, L1, L2, L3, <- E. destruct (Nat.ltb_spec a (length regs)); [apply K; assumption|]. assert (a = length regs) by lia. subst a. rewrite Nat.eqb_refl. exact KD. }
      apply (IH (Datatypes.S n) (Datatypes.S n') (regs ++ [c]) (regs' ++ [c']) (ids ++ [bids i ids]) (ms ++ [bplain i ms]) (Vs ++ [bnoise b crs B T i ids Vs])); trivial.
      + rewrite app_length. cbn [length]. rewrite Nat.add_1_r. exact V2.
      + rewrite !app_length. cbn [length]. lia.
      + rewrite !app_length. cbn [length]. lia.
      + rewrite !app_length. cbn [length]. lia.
      + apply Forall2_app; [exact SR|]. constructor; [exact X|constructor].
      + apply Y; trivial.
      + apply Y; trivial.
  Qed.
End Prog.

Theorem C74_bfv_program : forall N b crs (rs : brlkset N) (rk : rotset N) (ck : conjset N) (s r : string -> R N) B T (P : list string) (w w' : nat -> nat -> IdSetModel.order)
  prog (cs cs' : list (ctT N)) ids ms Vs, wfb N b -> (length (bQ b) mod alpha (ppQ b) = 0)%nat -> (forall n m, order_ok (w n m)) -> (forall n m, order_ok (w' n m)) -> Forall (bready b crs rs rk ck s r B T P) prog -> bvalid (length cs) prog ->
  length ids = length cs -> length ms = length cs -> length Vs = length cs -> sameBRegs cs cs' ->
  (forall a, (a < length cs)%nat -> breg b s P (nth a cs nil) (nth a ids nil) (nth a ms R0) (nth a Vs 0)) ->
  (forall a, (a < length cs)%nat -> breg b s P (nth a cs' nil) (nth a ids nil) (nth a ms R0) (nth a Vs 0)) ->
  exists r1 r1', brun b crs rs rk ck w 0 prog cs = Ok r1 /\ brun b crs rs rk ck w' 0 prog cs' = Ok r1' /\ sameBRegs r1 r1'.
Proof. intros N b crs rs rk ck s r B T P w w' prog cs cs' ids ms Vs WB HD O O'. intros. eapply (brun_same b WB HD); eassumption. Qed.
Print Assumptions C74_bfv_program.

(** the session of C47_end_to_end: encryption of the inputs, then the program *)
Theorem C74_bfv_session : forall N b B T D crs (rs : brlkset N) (rk : rotset N) (ck : conjset N) sks (pk : string -> publicKey N) (s r : string -> R N) (P : list string) rots
  (w w' : nat -> nat -> IdSetModel.order) (oe oe' : nat -> list string -> list string) (ins : list (binput N)) prog,
  wfb N b -> (length (bQ b) mod alpha (ppQ b) = 0)%nat -> (forall n m, order_ok (w n m)) -> (forall n m, order_ok (w' n m)) -> (forall n, ord1_ok (oe n)) -> (forall n, ord1_ok (oe' n)) ->
  small_ok (ppQ b) B -> small_ok (ppQ b) T ->
  (forall i, In i ([0; -1; -2; -3] ++ rots) -> exists c, mget Z.eq_dec crs i = Some c /\ crs_ok (ppQ b) c) ->
  mwf sks -> (forall id k, mget seq_dec sks id = Some k -> In id P) ->
  (forall id, In id P -> id <> id0 /\ bgenerated b B T crs rs rk ck sks rots pk id (s id) (r id)) ->
  (forall x, In x ins -> In (bi_id x) P /\ binput_ok b B T D x) ->
  bvalid (length ins) prog -> brots crs prog rots ->
  exists r1 r1', bsession b crs rs rk ck pk w oe ins prog = Ok r1 /\ bsession b crs rs rk ck pk w' oe' ins prog = Ok r1' /\ length r1 = (length ins + length prog)%nat /\ sameBRegs r1 r1'.
Proof.
  intros N b B T D crs rs rk ck sks pk s r P rots w w' oe oe' ins prog WB HD O O' OE OE' SM SMT HC MW HS HG HI V HR.
  destruct (bend_setup N b B T D crs rs rk ck sks pk s r P rots oe ins prog) as ((cs & CS1 & CS2 & CS3) & RDY & KO & IK); trivial. unfold bsession. rewrite CS1. cbn [rbind].
  assert (E : rmapM (fun k => match nth_error ins k with Some x => EncryptMsgNew (ppQ b) (oe' k) (bi_pt x) (pk (bi_id x)) (bi_su x) (bi_s0 x) (bi_s1 x) | None => Panic end) (seq 0 (length ins)) = Ok cs).
  { rewrite <- CS1. generalize (seq 0 (length ins)) as l. induction l as [|k l IH]; cbn [rmapM]; [reflexivity|]. rewrite IH. destruct (nth_error ins k) as [x|]; [|reflexivity]. rewrite (encrypt_det (ppQ b) (oe' k) (oe k)) by auto. reflexivity. }
  rewrite E. cbn [rbind].
  destruct (C74_bfv_program N b crs rs rk ck s r B T P w w' prog cs cs (map (fun x => [bi_id x]) ins) (map bi_m ins) (map (fun _ => bfresh_noise N b B T D) ins)) as (r1 & r1' & E1 & E1' & S); rewrite ?map_length, ?CS2; trivial.
  { clear. unfold sameBRegs. induction cs; constructor; [intros x; split; reflexivity|assumption]. }
  exists r1, r1'. split; [exact E1|]. split; [exact E1'|]. split; [|exact S].
  destruct (C47_program N b crs rs rk ck s r B T P w prog cs (map (fun x => [bi_id x]) ins) (map bi_m ins) (map (fun _ => bfresh_noise N b B T D) ins)) as (r2 & E2 & L2 & _); rewrite ?map_length, ?CS2; trivial.
  assert (r2 = r1) by congruence. subst r2. rewrite L2, CS2. reflexivity.
Qed.
Print Assumptions C74_bfv_session.

(** the session of C47_nonvacuous in two orders that differ in every loop *)
Theorem C74_bfv_session_nonvacuous : exists r1 r1', bsession exc exd_crs exd_rs exd_rk exd_ck exd_pk (fun _ _ => ex_ord) (fun n => ex_ord n) exd_ins exd_prog = Ok r1 /\
  bsession exc exd_crs exd_rs exd_rk exd_ck exd_pk (fun _ _ => ex_ord2) (fun n => ex_ord2 n) exd_ins exd_prog = Ok r1' /\ length r1 = 7%nat /\ sameBRegs r1 r1'.
Proof.
  destruct C47_nonvacuous as (WB & HD & O & SM & SMT & HC & MW & HS & HG & HI & V & HR & _).
  exact (C74_bfv_session 8 exc 3 1 exd_D exd_crs exd_rs exd_rk exd_ck exd_sks exd_pk (fun _ => ex_s) (fun _ => ex_s) exc_names [1; 2] (fun _ _ => ex_ord) (fun _ _ => ex_ord2) (fun n => ex_ord n) (fun n => ex_ord2 n) exd_ins exd_prog
    WB HD (fun _ _ => ex_ord_ok) (fun _ _ => ex_ord2_ok) (fun n l => ex_ord_ok n l) (fun n l => ex_ord2_ok n l) SM SMT HC MW HS HG HI V HR).
Qed.
Print Assumptions C74_bfv_session_nonvacuous.
