(** C74 from the messages to the decrypted plaintexts: encryption of the inputs, a program, and decryption of any register, run twice with any iteration orders.
    Programs are those of C48 (mkckks) and C47 (mkbfv). *)
From Flocq Require Import Core BinarySingleNaN.
From Coq Require Import Znumtheory Setoid Morphisms Reals Lra Permutation.
From Verif Require Import Base IdSetModel IdSetSpec IdSetProofs KeySetModel NumTheory Negacyclic Ntt Word BasisExt BasisExtProofs DecompProofs BasisSpec Rows RlweModel KeyGenModel SchemeSpec ExtProd ExtProps Galois KeyGenProofs Instance CtModel CtSpec CtProofs EncDecProofs EncMsgModel HeapModel HeapProofs PropsEnc KeySwitchModel Digits KsLoops RotProofs ConjProofs MulProofs PropsKeySwitch PropsRotate FloatModel CkksFloat CkksModel FloatProofs CkksFloatProofs CkksProofs CkksRescale PropsCkks PropsRescale PropsMulRelin BfvMulModel BfvCross EncFresh Slots PropsSlots CkksSlots SlotNorm CkksCircuit PropsCkksCircuit BfvModel PropsSum Determ DetermOps DetermMul PropsDeterm DetermLin PropsDetermLin PropsBfvMulEx PropsBfvCircuitEx PropsCkksCircuitEx BfvGadget BfvDig BfvKey BfvMulProofs PropsBfvConv PropsBfvMul BfvConv BfvCircuit PropsBfvCircuit PropsBfv PropsDetermBfv PropsDetermProg PropsDetermBfvProg DecryptorModel PropsDetermDec.
Open Scope Z_scope.


Theorem C74_end_to_end : forall N pp pscale B T M mu eps crs (rs : rlkset N) (rk : rotset N) (ck : conjset N) sks sks' (pk : string -> publicKey N) (s r : string -> R N) (pids : list string) rots
  (w w' : nat -> nat -> IdSetModel.order) (oe oe' : nat -> list string -> list string) (o o' : IdSetModel.order) pts pis zpts (ins : list (kinput N)) prog st ts',
  wfp N pp -> fpos pscale -> (forall n m, order_ok (w n m)) -> (forall n m, order_ok (w' n m)) -> (forall n, ord1_ok (oe n)) -> (forall n, ord1_ok (oe' n)) -> order_ok o -> order_ok o' ->
  small_ok pp B -> small_ok pp T -> pool_ok pp st ->
  (forall i, In i ([0; -1; -2] ++ rots) -> exists c, mget Z.eq_dec crs i = Some c /\ crs_ok pp c) ->
  mwf sks -> (forall id k, mget seq_dec sks id = Some k -> In id pids) -> mwf sks' -> (forall id, mget seq_dec sks id = mget seq_dec sks' id) ->
  (forall id, In id pids -> id <> id0 /\ kgenerated pp B T crs rs rk ck sks rots pk id (s id) (r id)) ->
  (forall x, In x ins -> In (ki_id x) pids /\ kinput_ok pp pscale B T M mu eps x) ->
  (forall p q, nth_error pis p = Some q -> exists x, nth_error pts p = Some x /\ kplainreg pp x q (nth p zpts zslots)) ->
  krots crs prog rots -> ksteps N pp pscale crs B T pis (map (fun x => kfresh N pp pscale B T M mu eps (ki_id x)) ins) prog ts' ->
  exists s1 r1 s1' r1', ksession pp pscale crs rs rk ck pts pk w oe ins prog st = Ok (s1, r1) /\ ksession pp pscale crs rs rk ck pts pk w' oe' ins prog st = Ok (s1', r1') /\
    length r1 = (length ins + length prog)%nat /\ length r1' = length r1 /\
    forall a c c' pool, nth_error r1 a = Some c -> nth_error r1' a = Some c' -> csc c = csc c' /\ ckDecrypt pp o pool (cv c) sks = ckDecrypt pp o' pool (cv c') sks'.
Proof.
  intros N pp pscale B T M mu eps crs rs rk ck sks sks' pk s r pids rots w w' oe oe' o o' pts pis zpts ins prog st ts' WF PS O O' OE OE' OD OD' SM SMT PO HC MW HS MW' HS' HG HI HP HR ST.
  destruct (C74_session N pp pscale B T M mu eps crs rs rk ck sks pk s r pids rots w w' oe oe' pts pis zpts ins prog st ts') as (s1 & r1 & s1' & r1' & E & E' & L1 & _ & SR); trivial.
  assert (INV : forall ww oee ss rr, (forall n m, order_ok (ww n m)) -> (forall n, ord1_ok (oee n)) -> ksession pp pscale crs rs rk ck pts pk ww oee ins prog st = Ok (ss, rr) ->
    keys_ok pp (fun _ => True) s sks /\ forall a c, nth_error rr a = Some c -> exists l, (l < length (Qm pp))%nat /\ wfct pp l false (cv c)).
  { intros ww oee ss rr Hw Ho H. destruct (kend_setup pp pscale B T M mu eps crs rs rk ck sks pk s r pids rots oee ins prog) as (cs & CS1 & CS2 & CS3 & RDY & KO & IK); trivial. split; [exact KO|].
    unfold ksession in H. rewrite CS1 in H. cbn [rbind] in H.
    destruct (C48_program N pp pscale crs rs rk ck s r B T pids ww pts pis zpts prog 0 st cs (map (fun x => kfresh N pp pscale B T M mu eps (ki_id x)) ins) (map ki_z ins) ts') as (s2 & r2 & E2 & _ & _ & LT & _ & K); rewrite ?map_length, ?CS2; trivial.
    assert (r2 = rr) by congruence. subst r2. intros a c Hc. destruct (nth_error ts' a) as [t|] eqn:ET.
    - destruct (K a c t Hc ET) as (K1 & K2 & _). exists (klev t). split; assumption.
    - exfalso. apply nth_error_None in ET. assert (a < length rr)%nat by (apply nth_error_Some; congruence). lia. }
  destruct (INV w oe s1 r1 O OE E) as [KO I1]. destruct (INV w' oe' s1' r1' O' OE' E') as [_ I2].
  exists s1, r1, s1', r1'. split; [exact E|]. split; [exact E'|]. split; [exact L1|]. split; [clear - SR; induction SR; cbn; congruence|].
  intros a c c' pool H1 H2. pose proof (F2_nth sameCk r1 r1' a SR) as X. rewrite H1, H2 in X. destruct X as [X1 X2]. split; [exact X2|].
  destruct (I1 a c H1) as (l & HL & W). destruct (I2 a c' H2) as (l' & _ & W').
  apply (C74_ckks_decrypt N pp l false o o' pool (cv c) (cv c') s sks sks'); trivial; [apply W'|].
  destruct KO as [A D]. split; [exact A|]. intros id k Hk. destruct (D id k Hk) as [D1 D2]. split; [exact D1|]. intros _. apply D2. exact Logic.I.
Qed.
Print Assumptions C74_end_to_end.

Theorem C74_bfv_end_to_end : forall N b B T D crs (rs : brlkset N) (rk : rotset N) (ck : conjset N) sks sks' (pk : string -> publicKey N) (s r : string -> R N) (P : list string) rots
  (w w' : nat -> nat -> IdSetModel.order) (oe oe' : nat -> list string -> list string) (o o' : IdSetModel.order) (ins : list (binput N)) prog,
  wfb N b -> (length (bQ b) mod alpha (ppQ b) = 0)%nat -> (forall n m, order_ok (w n m)) -> (forall n m, order_ok (w' n m)) -> (forall n, ord1_ok (oe n)) -> (forall n, ord1_ok (oe' n)) -> order_ok o -> order_ok o' ->
  small_ok (ppQ b) B -> small_ok (ppQ b) T ->
  (forall i, In i ([0; -1; -2; -3] ++ rots) -> exists c, mget Z.eq_dec crs i = Some c /\ crs_ok (ppQ b) c) ->
  mwf sks -> (forall id k, mget seq_dec sks id = Some k -> In id P) -> mwf sks' -> (forall id, mget seq_dec sks id = mget seq_dec sks' id) ->
  (forall id, In id P -> id <> id0 /\ bgenerated b B T crs rs rk ck sks rots pk id (s id) (r id)) ->
  (forall x, In x ins -> In (bi_id x) P /\ binput_ok b B T D x) ->
  bvalid (length ins) prog -> brots crs prog rots ->
  exists r1 r1', bsession b crs rs rk ck pk w oe ins prog = Ok r1 /\ bsession b crs rs rk ck pk w' oe' ins prog = Ok r1' /\ length r1 = (length ins + length prog)%nat /\
    forall a, (a < length r1)%nat -> exists p, bDecrypt (ppQ b) o (nth a r1 nil) sks = Ok p /\ bDecrypt (ppQ b) o' (nth a r1' nil) sks' = Ok p.
Proof.
  intros N b B T D crs rs rk ck sks sks' pk s r P rots w w' oe oe' o o' ins prog WB HD O O' OE OE' OD OD' SM SMT HC MW HS MW' HS' HG HI V HR. pose proof (wf_ppQ b WB) as WF.
  destruct (C74_bfv_session N b B T D crs rs rk ck sks pk s r P rots w w' oe oe' ins prog) as (r1 & r1' & E & E' & L1 & SR); trivial.
  assert (INV : forall ww oee rr, (forall n m, order_ok (ww n m)) -> (forall n, ord1_ok (oee n)) -> bsession b crs rs rk ck pk ww oee ins prog = Ok rr ->
    keys_ok (ppQ b) (fun _ => True) s sks /\ forall a, (a < length rr)%nat -> wfct (ppQ b) (maxLevel (ppQ b)) false (nth a rr nil)).
  { intros ww oee rr Hw Ho H. destruct (bend_setup N b B T D crs rs rk ck sks pk s r P rots oee ins prog) as ((cs & CS1 & CS2 & CS3) & RDY & KO & IK); trivial. split; [exact KO|].
    unfold bsession in H. rewrite CS1 in H. cbn [rbind] in H.
    destruct (C47_program N b crs rs rk ck s r B T P ww prog cs (map (fun x => [bi_id x]) ins) (map bi_m ins) (map (fun _ => bfresh_noise N b B T D) ins)) as (r2 & E2 & _ & _ & K); rewrite ?map_length, ?CS2; trivial.
    assert (r2 = rr) by congruence. subst r2. intros a Ha. apply (K a Ha). }
  destruct (INV w oe r1 O OE E) as [KO I1]. destruct (INV w' oe' r1' O' OE' E') as [_ I2].
  assert (LE : length r1' = length r1) by (clear - SR; unfold sameBRegs in SR; induction SR; cbn; congruence).
  exists r1, r1'. split; [exact E|]. split; [exact E'|]. split; [exact L1|]. intros a Ha.
  pose proof (F2_nth sameCt r1 r1' a SR) as X. rewrite (nth_error_nth' r1 nil Ha), (nth_error_nth' r1' nil) in X by lia.
  apply (C74_bfv_decrypt N (ppQ b) o o' _ _ s sks sks'); trivial; [apply I1; exact Ha|apply (I2 a); lia|].
  destruct KO as [A D0]. split; [exact A|]. intros id k Hk. destruct (D0 id k Hk) as [D1 D2]. split; [exact D1|]. intros _. apply D2. exact Logic.I.
Qed.
Print Assumptions C74_bfv_end_to_end.

(** the sessions of C48_nonvacuous and C47_nonvacuous (three parties, two inputs, seven and five calls), in two orders that differ in every loop and with the key map enumerated in two ways *)
Lemma exd_sks_rev : mwf (rev exd_sks) /\ (forall id, mget seq_dec exd_sks id = mget seq_dec (rev exd_sks) id) /\ rev exd_sks <> exd_sks.
Proof.
  split; [change (NoDup (keys (rev exd_sks))); cbn; repeat constructor; cbn; intuition discriminate|]. split; [|discriminate].
  intros id. cbn. repeat match goal with |- context [seq_dec ?a ?b] => destruct (seq_dec a b); subst; trivial; try discriminate end.
Qed.
Theorem C74_end_to_end_nonvacuous :
  (exists s1 r1 s1' r1', ksession xp exk_scale exd_crs exk_rs exd_rk exd_ck exk_pts exd_pk (fun _ _ => ex_ord) (fun n => ex_ord n) exk_ins exk_prog (NewEvaluator xp) = Ok (s1, r1) /\
    ksession xp exk_scale exd_crs exk_rs exd_rk exd_ck exk_pts exd_pk (fun _ _ => ex_ord2) (fun n => ex_ord2 n) exk_ins exk_prog (NewEvaluator xp) = Ok (s1', r1') /\ length r1 = 9%nat /\ length r1' = 9%nat /\
    forall a c c' pool, nth_error r1 a = Some c -> nth_error r1' a = Some c' -> csc c = csc c' /\ ckDecrypt xp ex_ord pool (cv c) exd_sks = ckDecrypt xp ex_ord2 pool (cv c') (rev exd_sks)) /\
  (exists r1 r1', bsession exc exd_crs exd_rs exd_rk exd_ck exd_pk (fun _ _ => ex_ord) (fun n => ex_ord n) exd_ins exd_prog = Ok r1 /\
    bsession exc exd_crs exd_rs exd_rk exd_ck exd_pk (fun _ _ => ex_ord2) (fun n => ex_ord2 n) exd_ins exd_prog = Ok r1' /\ length r1 = (length exd_ins + length exd_prog)%nat /\
    forall a, (a < length r1)%nat -> exists p, bDecrypt (ppQ exc) ex_ord (nth a r1 nil) exd_sks = Ok p /\ bDecrypt (ppQ exc) ex_ord2 (nth a r1' nil) (rev exd_sks) = Ok p).
Proof.
  destruct exd_sks_rev as (R1 & R2 & _). split.
  - destruct C48_nonvacuous as (WF & PS & O & SM & SMT & PO & HC & MW & HS & HG & HI & HP & HR & ts' & t & ST & _).
    destruct (C74_end_to_end 8 xp exk_scale 3 1 16384 (/ 8) 0 exd_crs exk_rs exd_rk exd_ck exd_sks (rev exd_sks) exd_pk (fun _ => ex_s) (fun _ => ex_s) exc_names [1; 2] (fun _ _ => ex_ord) (fun _ _ => ex_ord2) (fun n => ex_ord n) (fun n => ex_ord2 n) ex_ord ex_ord2 exk_pts exk_pis [exk_z exk_X1] exk_ins exk_prog (NewEvaluator xp) ts'
      WF PS (fun _ _ => ex_ord_ok) (fun _ _ => ex_ord2_ok) (fun n l => ex_ord_ok n l) (fun n l => ex_ord2_ok n l) ex_ord_ok ex_ord2_ok SM SMT PO HC MW HS R1 R2 HG HI HP HR ST) as (s1 & r1 & s1' & r1' & A & B & C & D & E).
    change (length exk_ins + length exk_prog)%nat with 9%nat in C. exists s1, r1, s1', r1'. split; [exact A|]. split; [exact B|]. split; [exact C|]. split; [congruence|exact E].
  - destruct C47_nonvacuous as (WB & HD & O & SM & SMT & HC & MW & HS & HG & HI & V & HR & _).
    exact (C74_bfv_end_to_end 8 exc 3 1 exd_D exd_crs exd_rs exd_rk exd_ck exd_sks (rev exd_sks) exd_pk (fun _ => ex_s) (fun _ => ex_s) exc_names [1; 2] (fun _ _ => ex_ord) (fun _ _ => ex_ord2) (fun n => ex_ord n) (fun n => ex_ord2 n) ex_ord ex_ord2 exd_ins exd_prog
      WB HD (fun _ _ => ex_ord_ok) (fun _ _ => ex_ord2_ok) (fun n l => ex_ord_ok n l) (fun n l => ex_ord2_ok n l) ex_ord_ok ex_ord2_ok SM SMT HC MW HS R1 R2 HG HI V HR).
Qed.
Print Assumptions C74_end_to_end_nonvacuous.
