(** C74 for whole programs: two runs of a client program over the mkckks evaluator, with any iteration orders in any loop of any call, leave the same ciphertexts in every register.
    Programs are those of C48 (CkksCircuit.v), here without a look at the messages: only what the registers hold, bit by bit. *)
From Flocq Require Import Core BinarySingleNaN.
From Coq Require Import Znumtheory Setoid Morphisms Reals Lra Permutation.
From Verif Require Import Base IdSetModel IdSetSpec IdSetProofs KeySetModel NumTheory Negacyclic Ntt Word BasisExt BasisExtProofs DecompProofs BasisSpec Rows RlweModel KeyGenModel SchemeSpec ExtProd ExtProps Galois KeyGenProofs Instance CtModel CtSpec CtProofs EncDecProofs EncMsgModel HeapModel HeapProofs PropsEnc KeySwitchModel Digits KsLoops RotProofs ConjProofs MulProofs PropsKeySwitch PropsRotate FloatModel CkksFloat CkksModel FloatProofs CkksFloatProofs CkksProofs CkksRescale PropsCkks PropsRescale PropsMulRelin BfvMulModel BfvCross EncFresh Slots PropsSlots CkksSlots SlotNorm CkksCircuit PropsCkksCircuit BfvModel PropsSum Determ DetermOps DetermMul PropsDeterm DetermLin PropsDetermLin PropsBfvMulEx PropsBfvCircuitEx PropsCkksCircuitEx.
Open Scope Z_scope.

(** the same registers *)
Definition sameRegs {N} (cs cs' : list (ckct N)) : Prop := Forall2 sameCk cs cs'.

Section Prog.
  Context {N : nat} (pp : rparams) (WF : wfp N pp) (pscale : f64).
  Variables (crs : crsT N) (rs : rlkset N) (rk : rotset N) (ck : conjset N) (s r : string -> R N) (B T : Z) (SM : small_ok pp B) (pids : list string) (pts : list (poly N * f64)).
  Definition okreg (c : ckct N) : Prop := exists level, (level < length (Qm pp))%nat /\ wfct pp level false (cv c) /\ incl (parties (cv c)) pids.

  Lemma F2_nth {A} (E : A -> A -> Prop) l l' i : Forall2 E l l' -> match nth_error l i, nth_error l' i with Some a, Some b => E a b | None, None => True | _, _ => False end.
  Proof. intros H. revert i. induction H; intros [|i]; cbn; trivial. apply IHForall2. Qed.
  Lemma kcall_same (o o' : nat -> IdSetModel.order) st st' cs cs' i : (forall n, order_ok (o n)) -> (forall n, order_ok (o' n)) -> kready pp crs rs rk ck s r B T pids i -> sameEv st st' -> sameRegs cs cs' ->
    (forall a c, nth_error cs a = Some c -> okreg c) -> (forall a c, nth_error cs' a = Some c -> mwf (cv c)) ->
    sameRes sameEvCk (kcall pp pscale crs rs rk ck pts o st cs i) (kcall pp pscale crs rs rk ck pts o' st' cs' i).
  Proof.
    intros O O' RD SE SR HR HM. assert (X : forall A B (E : A -> A -> Prop) (F : B -> B -> Prop) r r' f f', sameRes E r r' -> (forall a b, E a b -> sameRes F (f a) (f' b)) -> sameRes F (rbind r f) (rbind r' f')).
    { intros A B0 E F q q' f f' H K. destruct q, q'; cbn [sameRes rbind] in *; try contradiction; [apply K; exact H|exact I]. }
    assert (G : forall B (F : B -> B -> Prop) a (f f' : ckct N -> res B), (forall x y, nth_error cs a = Some x -> nth_error cs' a = Some y -> sameCk x y -> sameRes F (f x) (f' y)) -> sameRes F (x <- idx cs a ;; f x) (y <- idx cs' a ;; f' y)).
    { intros B0 F a f f' K. pose proof (F2_nth sameCk cs cs' a SR) as H. unfold idx. destruct (nth_error cs a) as [x|], (nth_error cs' a) as [y|]; cbn [rbind]; try contradiction; [apply K; trivial|exact I]. }
    assert (C : forall r r' : res (ckct N), sameRes sameCk r r' -> sameRes sameEvCk (c <- r ;; Ok (st, c)) (c <- r' ;; Ok (st', c))).
    { intros q q' H. apply (X _ _ _ _ _ _ _ _ H). intros a b E. split; assumption. }
    assert (M0 : forall a c, nth_error cs a = Some c -> mwf (cv c)) by (intros a c H; destruct (HR a c H) as (l & _ & W & _); apply W).
    destruct i as [i j|i j|i j|i k|i|i p|i n]; cbn [kcall kready] in *; (apply G; intros x x' I1 I2 SX).
    - apply G; intros y y' J1 J2 SY. apply C74_add_sub; eauto.
    - apply G; intros y y' J1 J2 SY. apply C74_add_sub; eauto.
    - apply G; intros y y' J1 J2 SY. apply C. destruct RD as (a & u & GA & GU & CA & CU & HK). destruct (HR _ _ I1) as (l0 & L0 & W0 & P0). destruct (HR _ _ J1) as (l1 & L1 & W1 & P1).
      apply (C74_mul N pp (o 0%nat) (o' 0%nat) crs pscale x x' y y' (i =? j)%nat rs s r a u B T l0 l1 WF (O _) (O' _) SM); trivial; eauto.
      + intros E. apply Nat.eqb_eq in E. subst j. congruence.
      + intros E. apply Nat.eqb_eq in E. subst j. congruence.
      + intros id [H|H]; apply HK; [apply P0|apply P1]; exact H.
    - apply C. destruct (HR _ _ I1) as (l0 & L0 & W0 & P0). exact (proj1 (C74_rotate N pp o o' crs x x' k nil rk l0 false WF O O' L0 W0 (HM _ _ I2) SX)).
    - apply C. destruct (HR _ _ I1) as (l0 & L0 & W0 & P0). exact (C74_conjugate N pp (o 0%nat) (o' 0%nat) crs x x' ck l0 false WF (O _) (O' _) L0 W0 (HM _ _ I2) SX).
    - unfold idx. destruct (nth_error pts p) as [q|]; cbn [rbind]; [|exact I]. apply C74_mul_ptxt; eauto.
    - apply C. destruct (HR _ _ I1) as (l0 & L0 & W0 & P0). exact (proj2 (C74_drop_level N pp (o 0%nat) (o' 0%nat) x x' n (O _) (O' _) (proj1 W0) (HM _ _ I2) (proj1 (proj2 W0)) SX)).
  Qed.
End Prog.

(** *** the program: under the hypotheses of C48_program, for registers that may be enumerated differently in the two runs *)
Theorem C74_program : forall N pp pscale crs (rs : rlkset N) (rk : rotset N) (ck : conjset N) (s r : string -> R N) B T (pids : list string) (w w' : nat -> nat -> IdSetModel.order)
  (pts : list (poly N * f64)) (pis : list kpinfo) (zpts : list slots) prog n n' st st' (cs cs' : list (ckct N)) ts zs ts',
  wfp N pp -> fpos pscale -> small_ok pp B -> (forall n m, order_ok (w n m)) -> (forall n m, order_ok (w' n m)) -> pool_ok pp st -> pool_ok pp st' -> sameEv st st' -> sameRegs cs cs' ->
  Forall (kready pp crs rs rk ck s r B T pids) prog -> ksteps N pp pscale crs B T pis ts prog ts' ->
  length ts = length cs -> length zs = length cs -> (forall a c t, nth_error cs a = Some c -> nth_error ts a = Some t -> kreg pp s pids c t (nth a zs zslots)) ->
  (forall a c t, nth_error cs' a = Some c -> nth_error ts a = Some t -> kreg pp s pids c t (nth a zs zslots)) ->
  (forall p q, nth_error pis p = Some q -> exists x, nth_error pts p = Some x /\ kplainreg pp x q (nth p zpts zslots)) ->
  exists s1 r1 s1' r1', krun pp pscale crs rs rk ck pts w n prog st cs = Ok (s1, r1) /\ krun pp pscale crs rs rk ck pts w' n' prog st' cs' = Ok (s1', r1') /\ sameEv s1 s1' /\ sameRegs r1 r1'.
Proof.
  intros N pp pscale crs rs rk ck s r B T pids w w' pts pis zpts prog n n' st st' cs cs' ts zs ts' WF PS SM O O' PO PO' SE SR F ST. revert n n' st st' cs cs' zs PO PO' SE SR F.
  induction ST as [ts|ts i t prog ts' S1 ST IH]; intros n n' st st' cs cs' zs PO PO' SE SR F L1 L2 H H' HP; cbn [krun].
  - exists st, cs, st', cs'. repeat split; trivial; apply SE.
  - inversion F as [|? ? F1 F2]; subst. assert (LE : length cs = length cs') by (clear - SR; induction SR; cbn; congruence).
    destruct (kcall_ok pp WF pscale PS crs rs rk ck s r B T SM pids (w n) st pts pis zpts i cs ts zs t (O n) PO F1 S1 L1 H HP) as (st1 & c & C1 & C2 & C3).
    destruct (kcall_ok pp WF pscale PS crs rs rk ck s r B T SM pids (w' n') st' pts pis zpts i cs' ts zs t (O' n') PO' F1 S1 ltac:(congruence) H' HP) as (st1' & c' & C1' & C2' & C3').
    assert (Q : forall l : list (ckct N), length ts = length l -> (forall a c t, nth_error l a = Some c -> nth_error ts a = Some t -> kreg pp s pids c t (nth a zs zslots)) -> forall a c, nth_error l a = Some c -> okreg pp pids c).
    { intros l E K a x Hx. destruct (nth_error ts a) as [y|] eqn:EY.
      - destruct (K a x y Hx EY) as (K1 & K2 & _ & _ & K5 & _ & K7 & _). exists (klev y). split; [exact K2|]. split; [exact K1|]. intros z Hz. apply K7, K5. exact Hz.
      - exfalso. apply nth_error_None in EY. assert (a < length l)%nat by (apply nth_error_Some; congruence). lia. }
    pose proof (kcall_same pp WF pscale crs rs rk ck s r B T SM pids pts (w n) (w' n') st st' cs cs' i (O n) (O' n') F1 SE SR (Q cs L1 H)
      ltac:(intros a x Hx; destruct (Q cs' ltac:(congruence) H' a x Hx) as (l & _ & W & _); apply W)) as X.
    rewrite C1, C1' in X. cbn [sameRes sameEvCk fst snd] in X. destruct X as [SE1 SC1]. cbn [fst snd] in *. rewrite C1, C1'. cbn [rbind].
    assert (Y : forall (l : list (ckct N)) x, length ts = length l -> kreg pp s pids x t (kplain N zpts i zs) -> (forall a c t, nth_error l a = Some c -> nth_error ts a = Some t -> kreg pp s pids c t (nth a zs zslots)) ->
      forall a c' t', nth_error (l ++ [x]) a = Some c' -> nth_error (ts ++ [t]) a = Some t' -> kreg pp s pids c' t' (nth a (zs ++ [kplain N zpts i zs]) zslots)).
    { intros l x E KX K a d t'. rewrite !nth_error_snoc, E. destruct (Nat.eqb_spec a (length l)) as [->|NE].
      - intros E1 E2. injection E1 as <-. injection E2 as <-. rewrite app_nth2 by lia. replace (length l - length zs)%nat with 0%nat by lia. exact KX.
      - intros E1 E2. assert (a < length l)%nat by (apply nth_error_Some; congruence). rewrite app_nth1 by lia. apply K; assumption. }
    apply (IH (S n) (S n') st1 st1' (cs ++ [c]) (cs' ++ [c']) (zs ++ [kplain N zpts i zs])); trivial.
    + apply Forall2_app; [exact SR|]. constructor; [exact SC1|constructor].
    + rewrite !app_length. cbn. lia.
    + rewrite !app_length. cbn. lia.
    + apply Y; trivial.
    + apply Y; trivial. congruence.
Qed.
Print Assumptions C74_program.

(** EncryptMsgNew's ciphertext has one party, so its loops have one order *)
Lemma encrypt_det {N} pp (o o' : list string -> list string) (pt : poly N) pk u e0 e1 : ord1_ok o -> ord1_ok o' -> EncryptMsgNew pp o pt pk u e0 e1 = EncryptMsgNew pp o' pt pk u e0 e1.
Proof.
  intros O O'. unfold EncryptMsgNew. destruct (is_add is_new (pk_id pk)) as [ids|] eqn:E; cbn [rbind]; [|reflexivity]. assert (K : keys ids = [pk_id pk]) by (unfold is_add, is_new in E; destruct (string_dec (pk_id pk) id0); [discriminate|injection E as <-; reflexivity]).
  unfold NewCiphertext. rewrite K. rewrite (Permutation_length_1_inv (Permutation_sym (O [pk_id pk]))), (Permutation_length_1_inv (Permutation_sym (O' [pk_id pk]))). reflexivity.
Qed.
(** the whole session of C48_end_to_end: encryption of the inputs, then the program, on one new evaluator *)
Theorem C74_session : forall N pp pscale B T M mu eps crs (rs : rlkset N) (rk : rotset N) (ck : conjset N) sks (pk : string -> publicKey N) (s r : string -> R N) (pids : list string) rots
  (w w' : nat -> nat -> IdSetModel.order) (oe oe' : nat -> list string -> list string) pts pis zpts (ins : list (kinput N)) prog st ts',
  wfp N pp -> fpos pscale -> (forall n m, order_ok (w n m)) -> (forall n m, order_ok (w' n m)) -> (forall n, ord1_ok (oe n)) -> (forall n, ord1_ok (oe' n)) -> small_ok pp B -> small_ok pp T -> pool_ok pp st ->
  (forall i, In i ([0; -1; -2] ++ rots) -> exists c, mget Z.eq_dec crs i = Some c /\ crs_ok pp c) ->
  mwf sks -> (forall id k, mget seq_dec sks id = Some k -> In id pids) ->
  (forall id, In id pids -> id <> id0 /\ kgenerated pp B T crs rs rk ck sks rots pk id (s id) (r id)) ->
  (forall x, In x ins -> In (ki_id x) pids /\ kinput_ok pp pscale B T M mu eps x) ->
  (forall p q, nth_error pis p = Some q -> exists x, nth_error pts p = Some x /\ kplainreg pp x q (nth p zpts zslots)) ->
  krots crs prog rots -> ksteps N pp pscale crs B T pis (map (fun x => kfresh N pp pscale B T M mu eps (ki_id x)) ins) prog ts' ->
  exists s1 r1 s1' r1', ksession pp pscale crs rs rk ck pts pk w oe ins prog st = Ok (s1, r1) /\ ksession pp pscale crs rs rk ck pts pk w' oe' ins prog st = Ok (s1', r1') /\
    length r1 = (length ins + length prog)%nat /\ sameEv s1 s1' /\ sameRegs r1 r1'.
Proof.
  intros N pp pscale B T M mu eps crs rs rk ck sks pk s r pids rots w w' oe oe' pts pis zpts ins prog st ts' WF PS O O' OE OE' SM SMT PO HC MW HS HG HI HP HR ST.
  destruct (kend_setup pp pscale B T M mu eps crs rs rk ck sks pk s r pids rots oe ins prog) as (cs & CS1 & CS2 & CS3 & RDY & KO & IK); trivial.
  assert (CS1' : kencrypt pp pscale pk oe' ins = Ok cs).
  { rewrite <- CS1. unfold kencrypt. generalize (seq 0 (length ins)) as l. induction l as [|k l IH]; cbn [rmapM]; [reflexivity|]. rewrite IH. destruct (nth_error ins k) as [x|]; [|reflexivity]. rewrite (encrypt_det pp (oe' k) (oe k)) by auto. reflexivity. }
  unfold ksession. rewrite CS1, CS1'. cbn [rbind].
  destruct (C74_program N pp pscale crs rs rk ck s r B T pids w w' pts pis zpts prog 0 0 st st cs cs (map (fun x => kfresh N pp pscale B T M mu eps (ki_id x)) ins) (map ki_z ins) ts') as (s1 & r1 & s1' & r1' & E & E' & A & C); rewrite ?map_length, ?CS2; trivial.
  - split; [intros x; split; reflexivity|reflexivity].
  - clear. induction cs; constructor; [apply sameCk_refl|assumption].
  - exists s1, r1, s1', r1'. split; [exact E|]. split; [exact E'|]. split; [|split; assumption].
    destruct (C48_program N pp pscale crs rs rk ck s r B T pids w pts pis zpts prog 0 st cs (map (fun x => kfresh N pp pscale B T M mu eps (ki_id x)) ins) (map ki_z ins) ts') as (s2 & r2 & E2 & _ & L & _); rewrite ?map_length, ?CS2; trivial.
    assert (r2 = r1) by congruence. subst r2. rewrite L, CS2. reflexivity.
Qed.
Print Assumptions C74_session.

(** the session of C48_nonvacuous (three parties' generated keys, two inputs, seven calls: product, rotation, conjugation, level drop, sum, plaintext product, difference), in two orders that differ in every loop *)
Theorem C74_session_nonvacuous : exists s1 r1 s1' r1',
  ksession xp exk_scale exd_crs exk_rs exd_rk exd_ck exk_pts exd_pk (fun _ _ => ex_ord) (fun n => ex_ord n) exk_ins exk_prog (NewEvaluator xp) = Ok (s1, r1) /\
  ksession xp exk_scale exd_crs exk_rs exd_rk exd_ck exk_pts exd_pk (fun _ _ => ex_ord2) (fun n => ex_ord2 n) exk_ins exk_prog (NewEvaluator xp) = Ok (s1', r1') /\ length r1 = 9%nat /\ sameEv s1 s1' /\ sameRegs r1 r1'.
Proof.
  destruct C48_nonvacuous as (WF & PS & O & SM & SMT & PO & HC & MW & HS & HG & HI & HP & HR & ts' & t & ST & _).
  exact (C74_session 8 xp exk_scale 3 1 16384 (/ 8) 0 exd_crs exk_rs exd_rk exd_ck exd_sks exd_pk (fun _ => ex_s) (fun _ => ex_s) exc_names [1; 2] (fun _ _ => ex_ord) (fun _ _ => ex_ord2) (fun n => ex_ord n) (fun n => ex_ord2 n) exk_pts exk_pis [exk_z exk_X1] exk_ins exk_prog (NewEvaluator xp) ts'
    WF PS (fun _ _ => ex_ord_ok) (fun _ _ => ex_ord2_ok) (fun n l => ex_ord_ok n l) (fun n l => ex_ord2_ok n l) SM SMT PO HC MW HS HG HI HP HR ST).
Qed.
Print Assumptions C74_session_nonvacuous.
