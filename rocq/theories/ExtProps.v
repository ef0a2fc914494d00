(** Key switching (generic noise lemma) and independence of the lazy representatives. *)
From Verif Require Import Base NumTheory Negacyclic Ntt Word FloatModel BasisExt BasisExtProofs DecompProofs Rows RlweModel SchemeSpec ExtProd.
From Coq Require Import Znumtheory Setoid Morphisms.
Open Scope Z_scope.

(** ** lattigo's InvNTTLazy may leave a + q for a: the division by P gives the same result *)
Lemma recon_lazy Q P rows rows' : okbase Q -> length rows = length Q -> length rows' = length Q ->
  Forall (fun x => 0 <= x < W) rows -> Forall (fun x => 0 <= x < W) rows' ->
  (forall i, (i < length Q)%nat -> eqz (nth i Q 0) (nth i rows 0) (nth i rows' 0)) ->
  recon_y rows Q (qoverqiinvqi (basisextenderparameters Q P)) = recon_y rows' Q (qoverqiinvqi (basisextenderparameters Q P)).
Proof.
  intros OKB L L' F F' H. apply (nth_ext _ _ 0 0); [rewrite !recon_len; lia|]. intros i Hi. rewrite recon_len, L in Hi.
  destruct (recon_nth rows Q P i OKB L F Hi) as [A B]. destruct (recon_nth rows' Q P i OKB L' F' Hi) as [A' B'].
  set (y := nth i (recon_y rows _ _) 0) in *. set (y' := nth i (recon_y rows' _ _) 0) in *.
  assert (K : okq (nth i Q 0)) by (apply (proj1 (Forall_forall _ _) (proj2 OKB)); apply nth_In; assumption).
  assert (X : eqz (nth i Q 0) y y').
  { apply (eqz_cancel _ (prodl (others i Q))).
    - apply prime_gcd; [apply K|]. apply others_coprime; assumption.
    - rewrite !(Z.mul_comm (prodl _)), B, B'. apply H. assumption. }
  apply eqz_iff in X; [|lia]. rewrite !Z.mod_small in X by lia. assumption.
Qed.

Theorem ModDown_lazy Q P levelQ levelP rowsQ rowsP rowsQ' rowsP' :
  okbase (Q ++ P) -> (levelQ < length Q)%nat -> (levelP < length P)%nat -> (S levelP <= 32)%nat ->
  (S levelP <= length rowsP)%nat -> (S levelP <= length rowsP')%nat ->
  Forall (fun x => 0 <= x < W) rowsP -> Forall (fun x => 0 <= x < W) rowsP' ->
  (forall i, (i <= levelQ)%nat -> 0 <= nth i rowsQ 0 < 2 * nth i Q 0) -> (forall i, (i <= levelQ)%nat -> 0 <= nth i rowsQ' 0 < 2 * nth i Q 0) ->
  (forall i, (i <= levelQ)%nat -> eqz (nth i Q 0) (nth i rowsQ 0) (nth i rowsQ' 0)) ->
  (forall i, (i <= levelP)%nat -> eqz (nth i P 0) (nth i rowsP 0) (nth i rowsP' 0)) ->
  ModDownQPtoQ Q P levelQ levelP rowsQ rowsP = ModDownQPtoQ Q P levelQ levelP rowsQ' rowsP'.
Proof.
  intros OKB HQ HP L32 LR LR' F F' B B' EQ EP.
  destruct (ModDownQPtoQ_ok Q P levelQ levelP rowsQ rowsP OKB HQ HP L32 LR F B) as (o & E & LO & O).
  destruct (ModDownQPtoQ_ok Q P levelQ levelP rowsQ' rowsP' OKB HQ HP L32 LR' F' B') as (o' & E' & LO' & O').
  rewrite E, E'. f_equal. cbv zeta in O, O'.
  assert (OKP : okbase (firstn (S levelP) P)).
  { apply okbase_firstn. destruct OKB as [ND FO]. apply Forall_app in FO. split; [apply NoDup_app_remove_l in ND; assumption|apply FO]. }
  assert (LF : length (firstn (S levelP) P) = S levelP) by (apply firstn_length'; lia).
  assert (M : modup_int (firstn (S levelP) P) (firstn (S levelP) rowsP) = modup_int (firstn (S levelP) P) (firstn (S levelP) rowsP')).
  { unfold modup_int. rewrite (recon_lazy (firstn (S levelP) P) nil (firstn (S levelP) rowsP) (firstn (S levelP) rowsP')); trivial.
    - rewrite LF. apply firstn_length'. lia.
    - rewrite LF. apply firstn_length'. lia.
    - apply Forall_forall. intros x Hx. apply firstn_incl in Hx. apply (proj1 (Forall_forall _ _) F). assumption.
    - apply Forall_forall. intros x Hx. apply firstn_incl in Hx. apply (proj1 (Forall_forall _ _) F'). assumption.
    - intros i Hi. rewrite LF in Hi. rewrite !nth_firstn by lia. apply EP. lia. }
  apply (nth_ext _ _ 0 0); [lia|]. intros i Hi. rewrite LO in Hi. destruct (O i ltac:(lia)) as [C D]. destruct (O' i ltac:(lia)) as [C' D'].
  rewrite M in D.
  assert (X : eqz (nth i Q 0) (nth i o 0) (nth i o' 0)).
  { apply (eqz_cancel _ (prodl (firstn (S levelP) P))).
    - destruct (genModDownParams_ok Q P levelP i OKB HP ltac:(lia)) as (_ & c & _ & M3).
      assert (K : okq (nth i Q 0)) by (destruct OKB as [_ FO]; apply Forall_app in FO; apply (proj1 (Forall_forall _ _) (proj1 FO)); apply nth_In; lia).
      apply prime_gcd; [apply K|]. intros [z Hz]. destruct M3 as [w Hw]. destruct K as [[K1 _] _]. rewrite Hz in Hw.
      assert (DV : (nth i Q 0 | 1)) by (exists (c * z - w); lia). apply Z.divide_1_r_nonneg in DV; lia.
    - rewrite D, D', (EQ i) by lia. reflexivity. }
  apply eqz_iff in X; [|lia]. rewrite !Z.mod_small in X by lia. assumption.
Qed.

Section KS.
  Context {N : nat} (pp : rparams) (WF : wfp N pp).
  Notation R := (R N).
  Notation mval := (mval pp). Notation okrows := (okrows pp). Notation digR := (digR pp). Notation gad := (gad pp).
  Add Ring R_ring4 : (@R_ring_theory N).

  Lemma frow_cong level k (c : list R) i : (level < length (Qm pp))%nat -> (k < beta pp level)%nat -> okrows level c -> vi pp level i ->
    forall j, i = MQ j -> (k * alpha pp <= j < (k + 1) * alpha pp)%nat -> eqm (qmod pp i) (digR level k c) (frow c i).
  Proof. intros L K A V j -> B. cbn [frow]. apply digR_cong; assumption. Qed.

  (** digits against a key e_k + g_k b *)
  Lemma gadget_sum level (c : list R) (b : R) (e : nat -> R) i : (level < length (Qm pp))%nat -> okrows level c -> vi pp level i ->
    eqm (qmod pp i) (Lsum (seq 0 (beta pp level)) (fun k => mul (add (e k) (mul (gad k i) b)) (digR level k c)))
      (add (smul (Pprod pp) (mul (frow c i) b)) (Lsum (seq 0 (beta pp level)) (fun k => mul (e k) (digR level k c)))).
  Proof.
    intros L A V.
    rewrite (Lsum_ext _ _ (fun k => add (mul (gad k i) (mul (digR level k c) b)) (mul (e k) (digR level k c)))) by (intros; ring).
    rewrite Lsum_add. apply eqm_add; [|reflexivity].
    apply (gad_sum pp WF level i (fun k => mul (digR level k c) b)); trivial.
    intros k j E K B. rewrite (frow_cong level k c i L K A V j E B). reflexivity.
  Qed.

  Lemma esum_bnd level (c : list R) (e : nat -> R) B : (level < length (Qm pp))%nat -> okrows level c -> (forall k, (k < beta pp level)%nat -> bnd (e k) B) ->
    bnd (Lsum (seq 0 (beta pp level)) (fun k => mul (e k) (digR level k c))) (Z.of_nat (beta pp level) * (Z.of_nat N * B * dig_bound pp level)).
  Proof.
    intros L A H. rewrite <- (seq_length (beta pp level) 0) at 2. apply Lsum_bnd. intros k Hk. apply in_seq in Hk.
    apply bnd_mul; [apply H; lia|]. apply digR_bnd; trivial. lia.
  Qed.

  Definition ks_noise level B : Z := Z.of_nat (beta pp level) * (Z.of_nat N * B * dig_bound pp level).

  (** C12 *)
  Theorem ext_prod_key level (a : poly N) (bg : swk N) (b : R) (e : nat -> R) B : (level < length (Qm pp))%nat ->
    okrows level (inv_form pp level a) -> (beta pp level <= length bg)%nat ->
    (forall k, (k < beta pp level)%nat -> mval level (nth k bg (QP nil nil)) (fun i => add (e k) (mul (gad k i) b))) ->
    (forall k, (k < beta pp level)%nat -> bnd (e k) B) ->
    exists out E, ExternalProduct pp level a bg = Ok out /\ length out = S level /\ (forall j, (j <= level)%nat -> canon (Qi pp j) (row out j)) /\
      bnd E ((ks_noise level B + slack (Pprod pp)) / Pprod pp) /\
      forall j, (j <= level)%nat -> eqm (mq (Qi pp j)) (row out j) (add (mul (row (inv_form pp level a) j) b) E).
  Proof.
    intros L A LB M HB. set (c := inv_form pp level a) in *.
    destruct (ext_prod_gen pp WF level a bg (fun k i => add (e k) (mul (gad k i) b)) L A LB M) as (out & Rm & E & LO & CO & BR & H). fold c in H.
    destruct (div_P pp WF level (frow out) (fun i => mul (frow c i) b)
                (sub (Lsum (seq 0 (beta pp level)) (fun k => mul (e k) (digR level k c))) Rm) (ks_noise level B + slack (Pprod pp)) L) as (EE & E1 & _ & E2).
    - intros i V. rewrite (H i V), gadget_sum by assumption.
      match goal with |- eqm _ ?l ?r => replace l with r by ring end. reflexivity.
    - apply bnd_sub; [apply esum_bnd; assumption|assumption].
    - exists out, EE. repeat (split; [assumption|]). exact E2.
  Qed.

  (** two external products with the same digits: a key for s under the mask t a *)
  Theorem key_switch level (a : poly N) (kb ka : swk N) (s t : R) (e : nat -> R) (f : nat -> mi -> R) B T : (level < length (Qm pp))%nat ->
    okrows level (inv_form pp level a) -> (beta pp level <= length kb)%nat -> (beta pp level <= length ka)%nat ->
    (forall k, (k < beta pp level)%nat -> mval level (nth k kb (QP nil nil)) (fun i => sub (add (e k) (mul (gad k i) s)) (mul t (f k i)))) ->
    (forall k, (k < beta pp level)%nat -> mval level (nth k ka (QP nil nil)) (f k)) ->
    (forall k, (k < beta pp level)%nat -> bnd (e k) B) -> bnd t T ->
    exists ob oa E, ExternalProduct pp level a kb = Ok ob /\ ExternalProduct pp level a ka = Ok oa /\ length ob = S level /\ length oa = S level /\
      (forall j, (j <= level)%nat -> canon (Qi pp j) (row ob j) /\ canon (Qi pp j) (row oa j)) /\
      bnd E ((ks_noise level B + slack (Pprod pp) + Z.of_nat N * T * slack (Pprod pp)) / Pprod pp) /\
      forall j, (j <= level)%nat -> eqm (mq (Qi pp j)) (add (row ob j) (mul t (row oa j))) (add (mul (row (inv_form pp level a) j) s) E).
  Proof.
    intros L A LB LA MB MA HB HT. set (c := inv_form pp level a) in *.
    destruct (ext_prod_gen pp WF level a kb _ L A LB MB) as (ob & R1 & X1 & LO1 & CO1 & BR1 & H1). fold c in H1.
    destruct (ext_prod_gen pp WF level a ka f L A LA MA) as (oa & R2 & X2 & LO2 & CO2 & BR2 & H2). fold c in H2.
    set (ES := Lsum (seq 0 (beta pp level)) (fun k => mul (e k) (digR level k c))).
    destruct (div_P pp WF level (fun i => add (frow ob i) (mul t (frow oa i))) (fun i => mul (frow c i) s)
                (sub (sub ES R1) (mul t R2)) (ks_noise level B + slack (Pprod pp) + Z.of_nat N * T * slack (Pprod pp)) L) as (EE & E1 & _ & E2).
    - intros i V. cbv beta.
      replace (smul (Pprod pp) (add (frow ob i) (mul t (frow oa i)))) with (add (smul (Pprod pp) (frow ob i)) (mul t (smul (Pprod pp) (frow oa i))))
        by (rewrite !smul_cst; ring).
      rewrite (H1 i V), (H2 i V).
      rewrite (Lsum_ext _ (fun k => mul (sub (add (e k) (mul (gad k i) s)) (mul t (f k i))) (digR level k c))
                 (fun k => sub (mul (add (e k) (mul (gad k i) s)) (digR level k c)) (mul t (mul (f k i) (digR level k c))))) by (intros; ring).
      rewrite Lsum_sub, Lsum_mul_l, gadget_sum by assumption. fold ES.
      match goal with |- eqm _ ?l ?r => replace l with r by ring end. reflexivity.
    - apply bnd_sub; [apply bnd_sub; [apply esum_bnd; assumption|assumption]|]. apply bnd_mul; assumption.
    - exists ob, oa, EE. split; [exact X1|]. split; [exact X2|]. split; [exact LO1|]. split; [exact LO2|]. split; [intros j Hj; split; auto|].
      split; [exact E1|]. exact E2.
  Qed.

  (** NTT-domain and coefficient-domain inputs give the same result *)
  Theorem ext_prod_ntt level (c : list R) (bg : swk N) : (level < length (Qm pp))%nat -> (level < length c)%nat ->
    (forall j, (j <= level)%nat -> canon (Qi pp j) (row c j)) ->
    ExternalProduct pp level (Pol (lvlQ1 pp level ntt c) true) bg = ExternalProduct pp level (Pol (firstn (S level) c) false) bg.
  Proof.
    intros L LC C. unfold ExternalProduct, Decompose, inv_form. cbn [pntt prows].
    replace (lvlQ1 pp level intt (lvlQ1 pp level ntt c)) with (firstn (S level) c); [reflexivity|].
    apply (nth_ext _ _ R0 R0); [unfold lvlQ1; rewrite tab_length; apply firstn_length'; lia|].
    intros j Hj. rewrite firstn_length' in Hj by lia. rewrite nth_firstn by lia.
    fold (row (lvlQ1 pp level intt (lvlQ1 pp level ntt c)) j). rewrite !row_lvlQ1 by lia. fold (row c j).
    pose proof (okmod_md pp WF level (MQ j) L ltac:(cbn; lia)) as K. cbn [md] in K.
    apply (canon_eqm (Qi pp j)); [apply K|apply C; lia|apply intt_canon; assumption|]. symmetry. apply intt_ntt. apply K.
  Qed.
End KS.
