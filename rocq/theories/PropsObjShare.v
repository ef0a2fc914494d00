(** C68: Encryptors and Decryptors used by several goroutines. *)
From Flocq Require Import Core BinarySingleNaN.
From Coq Require Import Znumtheory Setoid Morphisms.
From Verif Require Import Base IdSetModel IdSetProofs KeySetModel NumTheory Negacyclic Ntt Word FloatModel CkksFloat BasisExt BasisExtProofs Rows RlweModel SchemeSpec ExtProd ExtProps KeyGenModel Galois KeyGenProofs Instance CtModel CtSpec CtProofs EncDecProofs EncMsgModel KeySwitchModel CkksModel BfvModel KsPool KsPoolProofs GenPool EncPoolProofs DecryptorModel ShareModel PropsShare PropsEnc EncFresh PropsDecryptor PropsGen PropsCkksEx PropsBfv ObjShare ObjShareProofs.
Open Scope Z_scope.

(** ** Specification *)
(** what a call returns when it runs alone on the object [x]: an encryption with the next three samples of the Encryptor, the decryption the sequential models give *)
Definition alone {N} (pp : rparams) (om : nat -> list (R N)) (o : order) (c : call N) (x : obj N) : res (answer N) :=
  match c, x with
  | EncryptMsg pt pk, OEnc st _ | EncryptPtxt pt pk, OEnc st _ => c <- EncryptMsgNew pp (o 0%nat) pt pk (om (en st)) (om (en st + 1)%nat) (om (en st + 2)%nat) ;; Ok (ACt c)
  | DecryptMsg c sks, ODec pool _ => p <- snd (ckDecrypt pp o pool (cv c) sks) ;; Ok (AMsg p (csc c))
  | DecryptB c sks, ODecB _ => p <- bDecrypt pp o c sks ;; Ok (APoly p)
  | DecryptR c sks, OPlain p => p <- Decrypt pp o c sks p ;; Ok (APoly p)
  | _, _ => Panic
  end.
(** equal answers; ciphertexts are maps, so they are equal when their components are *)
Definition same_ct {N} (c d : ctT N) : Prop := forall id, mget seq_dec c id = mget seq_dec d id.
Definition same_answer {N} (r s : res (answer N)) : Prop :=
  match r, s with
  | Ok (ACt c), Ok (ACt d) => same_ct c d
  | Ok (AMsg p a), Ok (AMsg q b) => p = q /\ a = b
  | Ok (APoly p), Ok (APoly q) => p = q
  | Panic, Panic => True
  | _, _ => False
  end.
(** number of steps of a call *)
Definition steps {N} (c : call N) : nat := match c with EncryptMsg _ _ | EncryptPtxt _ _ => 10 | DecryptMsg _ _ => 5 | DecryptB _ _ => 3 | DecryptR _ _ => 4 end.
Definition returned {N} pp om (sch : list nat) (ts : list (gthread N)) xs (i : nat) : option (res (answer N)) :=
  match nth_error (fst (gsched pp om sch ts xs)) i with Some t => gOut t | None => None end.
Definition state_after {N} pp om (sch : list nat) (ts : list (gthread N)) xs (k : nat) : option (obj N) := nth_error (snd (gsched pp om sch ts xs)) k.
(** every object is new or in a state calls leave behind (the buffers have the size they were allocated with; a mkckks Decryptor's plaintext, in coefficient form, keeps at least one row),
    and every goroutine is about to make its call *)
Definition ready {N} (pp : rparams) (ts : list (gthread N)) (xs : list (obj N)) : Prop :=
  (forall j t, nth_error ts j = Some t -> exists k c o, t = start k c o /\ order_ok o) /\ forall k x, nth_error xs k = Some x -> obj_ok pp x.

(** ** A call that runs alone *)
Section Alone.
  Context {N : nat} (pp : rparams) (WF : wfp N pp) (om : nat -> nat -> list (R N)).
  Notation R := (R N). Notation ct := (ctT N). Notation n := (length (Qm pp)).
  Notation gsolo := (gsolo pp om).

  (** the ciphertext an encryption starts with *)
  Lemma start_ct (o : order) id lv : order_ok o -> id <> id0 -> (lv < n)%nat -> let c : ct := NewCiphertext (o 0%nat) [(id, tt)] (maxLevel pp) in
    ctLevel c = Ok (n - 1)%nat /\ mwf c /\ In id0 (keys c) /\ In id (keys c) /\ comp c id0 = Pol (repeat R0 (S (maxLevel pp))) false /\
    (exists x0 x1, hold id lv n false false c c x0 x1) /\ forall x, x <> id0 -> x <> id -> mget seq_dec c x = None.
  Proof using WF.
    intros O NE LN c. pose proof (wf_Qpos _ _ WF) as QP0.
    destruct (C03_new_ciphertext N pp (o 0%nat) [(id, tt)] (maxLevel pp) WF (O 0%nat)) as (W1 & W2 & W3 & W4); [unfold maxLevel; lia|]. fold c in W1, W2, W3, W4.
    assert (I0 : In id0 (keys c)) by (apply W2; left; reflexivity). assert (I1 : In id (keys c)) by (apply W2; right; left; reflexivity).
    assert (ML : S (maxLevel pp) = n) by (unfold maxLevel; lia).
    split; [rewrite W3; unfold maxLevel; reflexivity|]. split; [apply W1|]. split; [exact I0|]. split; [exact I1|].
    assert (G : forall x, In x (keys c) -> mget seq_dec c x = Some (Pol (repeat R0 (S (maxLevel pp))) false)).
    { intros x I. apply (mget_In_keys seq_dec) in I. destruct (mget seq_dec c x) as [p|] eqn:E; [|congruence]. rewrite (W4 x p E). reflexivity. }
    split; [unfold comp; rewrite (G id0 I0); reflexivity|]. split.
    - eexists _, _. exists (Pol (repeat R0 (S (maxLevel pp))) false), (Pol (repeat R0 (S (maxLevel pp))) false). split; [apply G; exact I0|]. split; [apply G; exact I1|].
      split; [reflexivity|]. split; [reflexivity|]. cbn [prows pntt]. rewrite repeat_length. split; [exact ML|]. split; [exact ML|]. split; [reflexivity|]. split; [reflexivity|]. split; [apply W1|]. intros; reflexivity.
    - intros x X0 X1. destruct (mget seq_dec c x) as [p|] eqn:E; [|reflexivity]. exfalso. assert (I : In x (keys c)) by (apply (mget_In_keys seq_dec); congruence). apply W2 in I. cbn in I. destruct I as [I|[I|[]]]; congruence.
  Qed.
  Lemma add_new id : id <> id0 -> is_add is_new id = Ok [(id, tt)].
  Proof. clear. intros H. unfold is_add. destruct (string_dec id id0); [congruence|reflexivity]. Qed.
  Lemma add_id0 : is_add is_new id0 = Panic. Proof. reflexivity. Qed.
  (** what EncryptMsgNew returns, component by component *)
  Lemma encrypt_comps (o : order) (pt : poly N) pk u e0 e1 : order_ok o -> pk_id pk <> id0 ->
    let lv := Nat.min (plevel pt) (n - 1) in
    exists cF, EncryptMsgNew pp (o 0%nat) pt pk u e0 e1 = Ok cF /\
      forall x, mget seq_dec cF x =
        if string_dec x id0 then Some (Pol (lvlQ2 pp lv r_add (lvlQ2 pp lv r_add (lvlQ1 pp lv intt (lvlQ2 pp lv r_mont (maskOf pp lv u) (qpQ (pk0 pk)))) e0) (plainRows pp lv pt)) false)
        else if string_dec x (pk_id pk) then Some (Pol (lvlQ2 pp lv r_add (lvlQ1 pp lv intt (lvlQ2 pp lv r_mont (maskOf pp lv u) (qpQ (pk1 pk)))) e1) false) else None.
  Proof using WF.
    intros O NE lv. pose proof (wf_Qpos _ _ WF) as QP0. unfold EncryptMsgNew. rewrite (add_new _ NE). cbn [rbind].
    destruct (start_ct o (pk_id pk) 0 O NE QP0) as (S1 & S2 & S3 & S4 & S5 & _ & S6). set (c := NewCiphertext (o 0%nat) [(pk_id pk, tt)] (maxLevel pp) : ct) in *.
    destruct (Encrypt_eq pp pt pk c u e0 e1 NE S3 S4 S2) as (cF & E & _ & G). exists cF. split; [exact E|]. rewrite S5 in G. cbn [pntt] in G.
    replace (Nat.min (plevel pt) (plevel (Pol (repeat (@R0 N) (S (maxLevel pp))) false))) with lv in G by (unfold lv, plevel, maxLevel; cbn [prows]; rewrite repeat_length; lia).
    intros x. rewrite G. destruct (string_dec x id0); [reflexivity|]. destruct (string_dec x (pk_id pk)); [reflexivity|]. apply S6; assumption.
  Qed.
  Lemma same_by_comps (c d : ct) f : (forall x, mget seq_dec c x = f x) -> (forall x, mget seq_dec d x = f x) -> same_ct c d.
  Proof. intros A B x. rewrite A, B. reflexivity. Qed.

  (** an encryption from its second step on, whatever it was started with: the plaintext is the one it finds *)
  Lemma enc_rest k (o : order) cl mine pk st pool : order_ok o -> pk_id pk <> id0 -> length (eQ st) = n ->
    (exists pt, (cl = EncryptMsg pt pk /\ mine = None) \/ (cl = EncryptPtxt pt pk /\ mine = Some pt)) ->
    let tx := gsolo 9 (eT k o cl 1 0 (NewCiphertext (o 0%nat) [(pk_id pk, tt)] (maxLevel pp)), OEnc st pool) in
    exists c cF st', gOut (fst tx) = Some (Ok (ACt c)) /\ snd tx = OEnc st' pool /\ en st' = (en st + 3)%nat /\ length (eQ st') = n /\
      EncryptMsgNew pp (o 0%nat) (ptOf mine pool) pk (om k (en st)) (om k (en st + 1)%nat) (om k (en st + 2)%nat) = Ok cF /\ same_ct c cF.
  Proof using WF.
    intros O NE LS CL. pose proof (wf_Qpos _ _ WF) as NP. set (lv := Nat.min (plevel (ptOf mine pool)) (n - 1)). assert (LN : (lv < n)%nat) by (unfold lv; lia).
    destruct (start_ct o (pk_id pk) lv O NE LN) as (S1 & S2 & S3 & S4 & S5 & (x0 & x1 & HO) & S6). set (c0 := NewCiphertext (o 0%nat) [(pk_id pk, tt)] (maxLevel pp) : ct) in *.
    destruct (enc13 pp om k o cl mine pk NP CL 0%nat c0 st pool S1 LS) as (s1 & R1 & N1 & L1 & U1). fold lv in R1, U1.
    destruct (enc45 pp om k o cl mine pk NE NP CL lv c0 LN c0 x0 x1 s1 pool HO) as (c1 & R2 & H2). rewrite !U1 in H2.
    destruct (enc69 pp om k o cl mine pk NE NP CL lv c0 LN c1 _ _ s1 pool H2 L1) as (c2 & s2 & R3 & R4 & N2 & L2 & G).
    intros tx. assert (TX : tx = gsolo 4 (eT k o cl 6 lv c1, OEnc s1 pool)).
    { unfold tx. change 9%nat with (3 + (2 + 4))%nat. rewrite gsolo_add, R1, gsolo_add, R2. reflexivity. }
    destruct (encrypt_comps o (ptOf mine pool) pk (om k (en st)) (om k (en st + 1)%nat) (om k (en st + 2)%nat) O NE) as (cF & EF & GF). fold lv in GF.
    exists c2, cF, s2. rewrite TX. split; [exact R3|]. split; [exact R4|]. split; [lia|]. split; [exact L2|]. split; [exact EF|].
    eapply same_by_comps; [exact G|]. intros x. rewrite GF, N1. replace (en st + 1)%nat with (S (en st)) by lia. replace (en st + 2)%nat with (S (S (en st))) by lia.
    destruct (string_dec x id0); [reflexivity|]. destruct (string_dec x (pk_id pk)); [reflexivity|]. symmetry. apply S6; assumption.
  Qed.
  (** its first step *)
  Lemma enc_begin k (o : order) pt pk st pool (msg : bool) : pk_id pk <> id0 ->
    let cl := if msg then EncryptMsg pt pk else EncryptPtxt pt pk in
    gexec pp om (start k cl o) (OEnc st pool) = (eT k o cl 1 0 (NewCiphertext (o 0%nat) [(pk_id pk, tt)] (maxLevel pp)), OEnc st (if msg then pt else pool)).
  Proof using. clear. intros NE cl. unfold gexec, start, cl. cbn [gOut]. destruct msg; unfold step; cbn [gCall gPh gOrd Nat.eqb]; unfold encBegin; rewrite (add_new _ NE); reflexivity. Qed.
  Lemma enc_solo k (o : order) pt pk st pool (msg : bool) : order_ok o -> length (eQ st) = n ->
    let cl := if msg then EncryptMsg pt pk else EncryptPtxt pt pk in
    exists r, gOut (fst (gsolo 10 (start k cl o, OEnc st pool))) = Some r /\ same_answer r (alone pp (om k) o cl (OEnc st pool)).
  Proof using WF.
    intros O LS cl. destruct (string_dec (pk_id pk) id0) as [E|NE].
    - exists Panic. unfold cl. assert (X : gexec pp om (start k cl o) (OEnc st pool) = (GT k cl o 0 0 nil (Some Panic), OEnc st pool)).
      { unfold gexec, start, cl. cbn [gOut]. destruct msg; unfold step; cbn [gCall gPh gOrd Nat.eqb]; unfold encBegin; rewrite E, add_id0; reflexivity. }
      split; [fold cl; rewrite solo_S, X, gsolo_end by (cbn; discriminate); reflexivity|].
      destruct msg; unfold alone, EncryptMsgNew; rewrite E, add_id0; exact Logic.I.
    - pose proof (enc_begin k o pt pk st pool msg NE) as B. fold cl in B. cbv zeta in B.
      destruct (enc_rest k o cl (if msg then None else Some pt) pk st (if msg then pt else pool) O NE LS) as (c & cF & st' & A1 & A2 & A3 & A4 & A5 & A6).
      { exists pt. unfold cl. destruct msg; [left|right]; split; reflexivity. }
      exists (Ok (ACt c)). split; [rewrite solo_S, B; exact A1|]. unfold alone, cl.
      assert (PT : ptOf (if msg then None else Some pt) (if msg then pt else pool) = pt) by (destruct msg; reflexivity). rewrite PT in A5.
      destruct msg; rewrite A5; exact A6.
  Qed.

  Lemma wr_all lv (new old : list R) : length old = S lv -> length new = S lv -> wr lv new old = new.
  Proof using. clear. intros A B. apply (nth_ext _ _ R0 R0); [rewrite wr_length; lia|]. intros j Hj. rewrite wr_length in Hj. pose proof (wr_row lv new old j Hj) as E. unfold row in E. rewrite E. destruct (Nat.leb_spec j lv); [reflexivity|lia]. Qed.
  Lemma dec_step k o c sks ph lv cl pool sc : gexec pp om (GT k (DecryptMsg c sks) o ph lv cl None) (ODec pool sc) =
    match decStep pp o c sks ph lv cl pool sc with
    | Go (l, d) y => (GT k (DecryptMsg c sks) o (S ph) l d None, y)
    | Ret a y => (GT k (DecryptMsg c sks) o ph lv cl (Some (Ok a)), y)
    | Stop y => (GT k (DecryptMsg c sks) o ph lv cl (Some Panic), y)
    end.
  Proof using. reflexivity. Qed.
  Lemma decR_step k o c sks ph lv cl pool : gexec pp om (GT k (DecryptR c sks) o ph lv cl None) (OPlain pool) =
    match decRStep pp o c sks ph lv cl pool with
    | Go (l, d) y => (GT k (DecryptR c sks) o (S ph) l d None, y)
    | Ret a y => (GT k (DecryptR c sks) o ph lv cl (Some (Ok a)), y)
    | Stop y => (GT k (DecryptR c sks) o ph lv cl (Some Panic), y)
    end.
  Proof using. reflexivity. Qed.
  Lemma decB_step k o c sks ph lv cl v : gexec pp om (GT k (DecryptB c sks) o ph lv cl None) (ODecB v) =
    match decBStep pp o c sks ph cl v with
    | Go (l, d) y => (GT k (DecryptB c sks) o (S ph) l d None, y)
    | Ret a y => (GT k (DecryptB c sks) o ph lv cl (Some (Ok a)), y)
    | Stop y => (GT k (DecryptB c sks) o ph lv cl (Some Panic), y)
    end.
  Proof using. reflexivity. Qed.
  (** mkrlwe's Decrypt is its three steps *)
  Lemma Decrypt_steps (o : order) (c : ct) sks (pool : poly N) : (0 < length (prows pool))%nat ->
    Decrypt pp o c sks pool = ('((lv, c1), p1) <- cutStep c pool ;; '(lv, c2) <- partStep pp o sks lv c1 ;; '(p, f) <- reduceStep pp lv c2 p1 ;; if f then Ok p else Panic) /\
    forall lc, ctLevel c = Ok lc -> Decrypt pp o c sks (truncPool pool lc) = Decrypt pp o c sks pool.
  Proof using.
    clear WF om. intros LP. unfold Decrypt, cutStep, partStep, reduceStep. destruct (ctLevel c) as [lc|]; cbn [rbind]; [|split; [reflexivity|discriminate]].
    destruct (truncPool_pos pool lc LP) as (_ & TL & TF).
    assert (TP : Nat.min lc (plevel (truncPool pool lc)) = Nat.min lc (plevel pool)) by (unfold plevel at 1; rewrite TL; lia).
    split.
    - destruct (CopyNew (o 0%nat) c) as [c2|]; cbn [rbind]; [|reflexivity]. destruct (IDSetOf (o 1%nat) c2) as [ids|]; cbn [rbind]; [|reflexivity].
      destruct (decLoop pp ids sks (o 2%nat (keys sks)) c2) as [c3|]; cbn [rbind]; [|reflexivity]. destruct (1 <? length c3)%nat; cbn [rbind]; [reflexivity|].
      destruct (cget c3 id0) as [p0|]; cbn [rbind]; [|reflexivity]. rewrite TL. rewrite (proj2 (Nat.ltb_lt _ _)) by lia.
      rewrite wr_all; [|exact TL|apply lvlQ1_len]. rewrite TF. reflexivity.
    - intros lc' E. assert (lc' = lc) by congruence. subst lc'. rewrite TP. cbn [truncPool pntt]. reflexivity.
  Qed.
  Lemma dec_solo k (o : order) c sks pool sc : (0 < length (prows pool))%nat ->
    gOut (fst (gsolo 5 (start k (DecryptMsg c sks) o, ODec pool sc))) = Some (alone pp (om k) o (DecryptMsg c sks) (ODec pool sc)).
  Proof using.
    clear WF. intros LP. unfold start, alone, ckDecrypt. rewrite solo_S, dec_step. unfold decStep. destruct (CopyNew (o 3%nat) (cv c)) as [c1|]; cbn [rbind goR]; [|rewrite gsolo_end by (cbn; discriminate); reflexivity].
    pose proof (Decrypt_steps o c1 sks pool LP) as [DS DT]. unfold cutStep in *. destruct (ctLevel c1) as [lc|] eqn:EL; cbn [rbind goR] in *; [|rewrite gsolo_end by (cbn; discriminate); reflexivity].
    rewrite DT by reflexivity. rewrite DS. clear DS DT. set (lv := Nat.min lc (plevel pool)). set (p1 := truncPool pool lc).
    rewrite solo_S, dec_step. unfold decStep. destruct (partStep pp o sks lv c1) as [[lv' c2]|]; cbn [rbind goR]; [|rewrite gsolo_end by (cbn; discriminate); reflexivity].
    rewrite solo_S, dec_step. unfold decStep. destruct (reduceStep pp lv' c2 p1) as [[p [|]]|]; cbn [rbind goR]; [|rewrite gsolo_end by (cbn; discriminate); reflexivity..].
    rewrite solo_S, dec_step. unfold decStep. rewrite solo_S, dec_step. unfold decStep. reflexivity.
  Qed.
  Lemma decR_solo k (o : order) c sks pool : (0 < length (prows pool))%nat ->
    gOut (fst (gsolo 4 (start k (DecryptR c sks) o, OPlain pool))) = Some (alone pp (om k) o (DecryptR c sks) (OPlain pool)).
  Proof using.
    clear WF. intros LP. unfold start, alone. rewrite solo_S, decR_step. unfold decRStep.
    rewrite (proj1 (Decrypt_steps o c sks pool LP)). destruct (cutStep c pool) as [[[lv c1] p1]|]; cbn [rbind goR]; [|rewrite gsolo_end by (cbn; discriminate); reflexivity].
    rewrite solo_S, decR_step. unfold decRStep. destruct (partStep pp o sks lv c1) as [[lv' c2]|]; cbn [rbind goR]; [|rewrite gsolo_end by (cbn; discriminate); reflexivity].
    rewrite solo_S, decR_step. unfold decRStep. destruct (reduceStep pp lv' c2 p1) as [[p [|]]|]; cbn [rbind goR]; [|rewrite gsolo_end by (cbn; discriminate); reflexivity..].
    rewrite solo_S, decR_step. unfold decRStep. reflexivity.
  Qed.
  Lemma decB_solo k (o : order) c sks v : gOut (fst (gsolo 3 (start k (DecryptB c sks) o, ODecB v))) = Some (alone pp (om k) o (DecryptB c sks) (ODecB v)).
  Proof using.
    clear WF. unfold start, alone, bDecrypt. rewrite solo_S, decB_step. unfold decBStep.
    destruct (CopyNew (o 0%nat) c) as [c2|]; cbn [rbind goR]; [|rewrite gsolo_end by (cbn; discriminate); reflexivity]. destruct (IDSetOf (o 1%nat) c2) as [ids|]; cbn [rbind goR]; [|rewrite gsolo_end by (cbn; discriminate); reflexivity].
    destruct (decLoop pp ids sks (o 2%nat (keys sks)) c2) as [c3|]; cbn [rbind goR]; [|rewrite gsolo_end by (cbn; discriminate); reflexivity].
    rewrite solo_S, decB_step. unfold decBStep. destruct (cget c3 id0) as [p0|]; cbn [rbind goR]; [|rewrite gsolo_end by (cbn; discriminate); reflexivity].
    rewrite solo_S, decB_step. unfold decBStep. reflexivity.
  Qed.
  Lemma same_refl r : same_answer (N := N) r r.
  Proof using. destruct r as [[c|p s|p]|]; cbn; [intros x; reflexivity|split; reflexivity|reflexivity|exact Logic.I]. Qed.
  Lemma call_solo k (o : order) c x : order_ok o -> obj_ok pp x -> exists r, gOut (fst (gsolo (steps c) (start k c o, x))) = Some r /\ same_answer r (alone pp (om k) o c x).
  Proof using WF.
    intros O K. assert (BAD : step pp (om k) (start k c o) x = Stop x -> alone pp (om k) o c x = Panic -> exists r, gOut (fst (gsolo (steps c) (start k c o, x))) = Some r /\ same_answer r (alone pp (om k) o c x)).
    { intros E A. exists Panic. rewrite A. split; [|exact Logic.I]. assert (X : gexec pp om (start k c o) x = (GT k c o 0 0 nil (Some Panic), x)) by (unfold gexec; cbn [gOut start gObj]; change (GT k c o 0 0 nil None) with (start k c o); rewrite E; reflexivity).
      destruct c; cbn [steps]; rewrite solo_S, X, gsolo_end by (cbn; discriminate); reflexivity. }
    destruct c as [pt pk|pt pk|c sks|c sks|c sks], x as [st pool|pool sc|v|pool]; try (apply BAD; reflexivity); clear BAD; cbn in K.
    - apply (enc_solo k o pt pk st pool true O K).
    - apply (enc_solo k o pt pk st pool false O K).
    - eexists. split; [apply dec_solo; tauto|apply same_refl].
    - eexists. split; [apply decB_solo|apply same_refl].
    - eexists. split; [apply decR_solo; exact K|apply same_refl].
  Qed.
End Alone.

(** ** C68 *)
(** Whatever happened before on any object, a call returns what it returns alone (on its object as it is when the call starts) if, from its first step to its last, no other call on that
    object makes a step. *)
Theorem C68_exclusive : forall N pp om (ts : list (gthread N)) xs i t sch1 sch2, wfp N pp -> ready pp ts xs -> nth_error ts i = Some t -> (gObj t < length xs)%nat ->
  ~ In i sch1 -> (forall j tj, In j sch2 -> nth_error ts j = Some tj -> j = i \/ gObj tj <> gObj t) ->
  exists x, state_after pp om sch1 ts xs (gObj t) = Some x /\
    (forall r, returned pp om (sch1 ++ sch2) ts xs i = Some r -> same_answer r (alone pp (om (gObj t)) (gOrd t) (gCall t) x)) /\
    ((steps (gCall t) <= count_occ Nat.eq_dec sch2 i)%nat -> forall sch3, exists r, returned pp om (sch1 ++ sch2 ++ sch3) ts xs i = Some r /\ same_answer r (alone pp (om (gObj t)) (gOrd t) (gCall t) x)).
Proof.
  intros N pp om ts xs i t sch1 sch2 WF [RD OK] Et LK N1 EX.
  destruct (nth_error xs (gObj t)) as [x0|] eqn:Ex0; [|apply nth_error_None in Ex0; lia].
  destruct (gsched_ok pp om sch1 ts xs OK _ _ Ex0) as (x & Ex & XO & _). exists x. split; [exact Ex|].
  assert (Et1 : nth_error (fst (gsched pp om sch1 ts xs)) i = Some t) by (rewrite gsched_other by exact N1; exact Et).
  assert (EX1 : forall j tj, In j sch2 -> nth_error (fst (gsched pp om sch1 ts xs)) j = Some tj -> j = i \/ gObj tj <> gObj t).
  { intros j tj Hj Ej. pose proof (gsched_obj pp om sch1 ts xs j) as S. rewrite Ej in S. cbn in S. destruct (nth_error ts j) as [u|] eqn:Eu; cbn in S; [|discriminate]. injection S as S. rewrite S. apply (EX j u Hj Eu). }
  destruct (gsched_excl pp om sch2 i _ _ t x Et1 Ex EX1) as [X _].
  destruct (RD i t Et) as (k & c & o & E & O). rewrite E in *. cbn [start gObj gOrd gCall] in *. fold (start (N := N) k c o) in *.
  destruct (call_solo pp WF om k o c x O XO) as (r0 & S0 & A0).
  split.
  - intros r. unfold returned. rewrite gsched_app, X. intros H. pose proof (gsolo_same pp om _ (steps c) _ _ r H) as Y. rewrite Nat.add_comm in Y. rewrite (gsolo_same pp om (steps c) _ _ _ _ S0) in Y.
    rewrite <- Y in H. rewrite S0 in H. assert (r0 = r) by congruence. subst r. exact A0.
  - intros C sch3. exists r0. split; [|exact A0]. unfold returned. rewrite !gsched_app. replace (count_occ Nat.eq_dec sch2 i) with (steps c + (count_occ Nat.eq_dec sch2 i - steps c))%nat in X by lia.
    rewrite (gsolo_same pp om (steps c) _ _ _ _ S0) in X. rewrite (gsched_ended pp om sch3 i _ _ _ X); [exact S0|]. rewrite S0. discriminate.
Qed.
Print Assumptions C68_exclusive.

(** If no two goroutines use the same object, every call returns what it returns alone, on every schedule. *)
Corollary C68_own_objects : forall N pp om (ts : list (gthread N)) xs i t x sch, wfp N pp -> ready pp ts xs -> nth_error ts i = Some t -> nth_error xs (gObj t) = Some x ->
  (forall j tj, nth_error ts j = Some tj -> gObj tj = gObj t -> j = i) ->
  (forall r, returned pp om sch ts xs i = Some r -> same_answer r (alone pp (om (gObj t)) (gOrd t) (gCall t) x)) /\
  ((steps (gCall t) <= count_occ Nat.eq_dec sch i)%nat -> exists r, returned pp om sch ts xs i = Some r /\ same_answer r (alone pp (om (gObj t)) (gOrd t) (gCall t) x)).
Proof.
  intros N pp om ts xs i t x sch WF RD Et Ex U. assert (LK : (gObj t < length xs)%nat) by (apply nth_error_Some; congruence).
  destruct (C68_exclusive N pp om ts xs i t nil sch WF RD Et LK (fun F => F)) as (x' & Ex' & A & B).
  { intros j tj _ Ej. destruct (Nat.eq_dec j i) as [->|NE]; [left; reflexivity|right; intros F; apply NE, (U j tj Ej F)]. }
  assert (E : x' = x) by (unfold state_after in Ex'; cbn in Ex'; congruence). rewrite E in A, B. split; [exact A|]. intros C. destruct (B C nil) as (r & R1 & R2). exists r. rewrite app_nil_r in R1. split; assumption.
Qed.
Print Assumptions C68_own_objects.

(** ** Sharing an object *)
Section Shared.
  Context {N : nat} (pp : rparams) (WF : wfp N pp) (om : nat -> nat -> list (R N)).
  Notation R := (R N). Notation ct := (ctT N). Notation n := (length (Qm pp)).
  Notation gsolo := (gsolo pp om). Notation gsched := (gsched pp om).
  Lemma count_repeat i m : count_occ Nat.eq_dec (repeat i m) i = m.
  Proof. clear. induction m as [|m IH]; cbn; [reflexivity|]. destruct (Nat.eq_dec i i); [rewrite IH; reflexivity|congruence]. Qed.
  (** one goroutine makes m steps *)
  Lemma seg i m ts xs t x : nth_error ts i = Some t -> nth_error xs (gObj t) = Some x ->
    nth_error (fst (gsched (repeat i m) ts xs)) i = Some (fst (gsolo m (t, x))) /\ nth_error (snd (gsched (repeat i m) ts xs)) (gObj t) = Some (snd (gsolo m (t, x))) /\
    forall j, j <> i -> nth_error (fst (gsched (repeat i m) ts xs)) j = nth_error ts j.
  Proof using.
    clear WF. intros Et Ex. destruct (gsched_excl pp om (repeat i m) i ts xs t x Et Ex) as [A B].
    { intros j tj Hj _. left. apply repeat_spec in Hj. exact Hj. }
    rewrite count_repeat in A, B. split; [exact A|]. split; [exact B|]. intros j NJ. apply gsched_other. intros F. apply repeat_spec in F. congruence.
  Qed.
  Lemma gsolo_obj m t x : gObj (fst (gsolo m (t, x))) = gObj t.
  Proof using. clear WF. revert t x. induction m as [|m IH]; intros t x; [reflexivity|]. rewrite solo_S. pose proof (gexec_obj pp om t x) as E. destruct (gexec pp om t x) as [t' x']. rewrite IH. exact E. Qed.
  Lemma ret_at sch ts xs i t : nth_error (fst (gsched sch ts xs)) i = Some t -> returned pp om sch ts xs i = gOut t.
  Proof using. clear WF. intros E. unfold returned. rewrite E. reflexivity. Qed.

  (** a DecryptMsg call up to the decoding *)
  Lemma dec_prefix k (o : order) c sks pool sc p : (0 < length (prows pool))%nat -> snd (ckDecrypt pp o pool (cv c) sks) = Ok p ->
    exists lv cl, gsolo 3 (start k (DecryptMsg c sks) o, ODec pool sc) = (GT k (DecryptMsg c sks) o 3 lv cl None, ODec p sc) /\
      gsolo 4 (start k (DecryptMsg c sks) o, ODec pool sc) = (GT k (DecryptMsg c sks) o 4 lv cl None, ODec p (csc c)).
  Proof using.
    clear WF. intros LP H. unfold ckDecrypt in H. unfold start. rewrite !solo_S, dec_step. unfold decStep. destruct (CopyNew (o 3%nat) (cv c)) as [c1|]; cbn [rbind goR]; [|discriminate].
    pose proof (Decrypt_steps pp o c1 sks pool LP) as [DS DT]. unfold cutStep in *. destruct (ctLevel c1) as [lc|] eqn:EL; cbn [rbind goR] in *; [|discriminate].
    rewrite DT in H by reflexivity. rewrite DS in H. clear DS DT. set (lv := Nat.min lc (plevel pool)) in *. set (p1 := truncPool pool lc) in *.
    rewrite !solo_S, dec_step. unfold decStep. destruct (partStep pp o sks lv c1) as [[lv' c2]|]; cbn [rbind goR] in *; [|discriminate].
    rewrite !solo_S, dec_step. unfold decStep. destruct (reduceStep pp lv' c2 p1) as [[p' [|]]|]; cbn [rbind goR snd] in *; [|discriminate..].
    assert (EP : p' = p) by congruence. rewrite EP. exists lv', c2. split; reflexivity.
  Qed.
  Lemma dec_result (o : order) (c : ct) sks pool p : (0 < length (prows pool))%nat -> snd (ckDecrypt pp o pool c sks) = Ok p -> (0 < length (prows p))%nat.
  Proof using.
    clear WF. intros LP. unfold ckDecrypt. destruct (CopyNew (o 3%nat) c) as [c1|]; [|discriminate]. destruct (ctLevel c1) as [lc|] eqn:EL; [|discriminate].
    unfold Decrypt. rewrite EL. cbn [rbind]. destruct (CopyNew (o 0%nat) c1) as [c2|]; cbn [rbind snd]; [|discriminate]. destruct (IDSetOf (o 1%nat) c2) as [ids|]; cbn [rbind snd]; [|discriminate].
    destruct (decLoop pp ids sks (o 2%nat (keys sks)) c2) as [c3|]; cbn [rbind snd]; [|discriminate]. destruct (1 <? length c3)%nat; [discriminate|].
    destruct (cget c3 id0) as [p0|]; cbn [rbind snd]; [|discriminate]. intros E. match type of E with Ok ?a = Ok ?b => assert (EZ : a = b) by congruence end. rewrite <- EZ. cbn [prows]. rewrite lvlQ1_len. lia.
  Qed.
End Shared.

(** two goroutines on one object of the given state *)
Definition two_on {N} (ts : list (gthread N)) xs (i j k : nat) (x : obj N) (ci cj : call N) (oi oj : order) : Prop :=
  i <> j /\ nth_error ts i = Some (start k ci oi) /\ nth_error ts j = Some (start k cj oj) /\ nth_error xs k = Some x.

(** For every two EncryptMsgNew calls on one Encryptor there is a schedule in which the first returns a proper encryption of the second's message under the first's public key (the second
    returns its own). *)
Theorem C68_other_message : forall N pp om (ts : list (gthread N)) xs i j k st pool pta pka ptb pkb oa ob, wfp N pp -> ready pp ts xs ->
  two_on ts xs i j k (OEnc st pool) (EncryptMsg pta pka) (EncryptMsg ptb pkb) oa ob -> pk_id pka <> id0 -> pk_id pkb <> id0 ->
  exists sch c c' d d', returned pp om sch ts xs i = Some (Ok (ACt c)) /\ returned pp om sch ts xs j = Some (Ok (ACt d)) /\
    EncryptMsgNew pp (oa 0%nat) ptb pka (om k (en st)) (om k (en st + 1)%nat) (om k (en st + 2)%nat) = Ok c' /\ same_ct c c' /\
    EncryptMsgNew pp (ob 0%nat) ptb pkb (om k (en st + 3)%nat) (om k (en st + 4)%nat) (om k (en st + 5)%nat) = Ok d' /\ same_ct d d'.
Proof.
  intros N pp om ts xs i j k st pool pta pka ptb pkb oa ob WF [RD OK] (NIJ & Ei & Ej & Ex) NA NB.
  assert (LS : length (eQ st) = length (Qm pp)) by (apply (OK _ _ Ex)).
  assert (OA : order_ok oa). { destruct (RD _ _ Ei) as (? & ? & o & E & O). unfold start in E. assert (o = oa) by congruence. subst o. exact O. }
  assert (OB : order_ok ob). { destruct (RD _ _ Ej) as (? & ? & o & E & O). unfold start in E. assert (o = ob) by congruence. subst o. exact O. }
  pose proof (enc_begin pp om k oa pta pka st pool true NA) as B1. cbv zeta in B1. cbn iota in B1.
  pose proof (enc_begin pp om k ob ptb pkb st pta true NB) as B2. cbv zeta in B2. cbn iota in B2.
  set (ta := eT k oa (EncryptMsg pta pka) 1 0 (NewCiphertext (oa 0%nat) [(pk_id pka, tt)] (maxLevel pp)) : gthread N) in *.
  set (tb := eT k ob (EncryptMsg ptb pkb) 1 0 (NewCiphertext (ob 0%nat) [(pk_id pkb, tt)] (maxLevel pp)) : gthread N) in *.
  destruct (enc_rest pp WF om k oa (EncryptMsg pta pka) None pka st ptb OA NA LS) as (c & c' & s1 & A1 & A2 & A3 & A4 & A5 & A6); [exists pta; left; split; reflexivity|]. fold ta in A1, A2.
  destruct (enc_rest pp WF om k ob (EncryptMsg ptb pkb) None pkb s1 ptb OB NB A4) as (d & d' & s2 & D1 & D2 & D3 & D4 & D5 & D6); [exists ptb; left; split; reflexivity|]. fold tb in D1, D2.
  destruct (seg pp om i 1 ts xs _ _ Ei Ex) as (I1 & X1 & O1). rewrite solo_S in I1, X1. rewrite B1 in I1, X1. cbn [gsolo fst snd start gObj] in I1, X1.
  set (ts1 := fst (gsched pp om (repeat i 1) ts xs)) in *. set (xs1 := snd (gsched pp om (repeat i 1) ts xs)) in *.
  rewrite <- (O1 j) in Ej by congruence.
  destruct (seg pp om j 1 ts1 xs1 _ _ Ej X1) as (I2 & X2 & O2). rewrite solo_S in I2, X2. rewrite B2 in I2, X2. cbn [gsolo fst snd start gObj] in I2, X2.
  set (ts2 := fst (gsched pp om (repeat j 1) ts1 xs1)) in *. set (xs2 := snd (gsched pp om (repeat j 1) ts1 xs1)) in *.
  rewrite <- (O2 i) in I1 by congruence.
  destruct (seg pp om i 9 ts2 xs2 _ _ I1 X2) as (I3 & X3 & O3). unfold ta in X3 at 1. cbn [eT gObj] in X3. rewrite A2 in X3. rewrite <- (O3 j) in I2 by congruence.
  set (ts3 := fst (gsched pp om (repeat i 9) ts2 xs2)) in *. set (xs3 := snd (gsched pp om (repeat i 9) ts2 xs2)) in *.
  destruct (seg pp om j 9 ts3 xs3 _ _ I2 X3) as (I4 & X4 & O4). rewrite <- (O4 i) in I3 by congruence.
  exists (repeat i 1 ++ repeat j 1 ++ repeat i 9 ++ repeat j 9), c, c', d, d'.
  assert (RUN : gsched pp om (repeat i 1 ++ repeat j 1 ++ repeat i 9 ++ repeat j 9) ts xs = gsched pp om (repeat j 9) ts3 xs3) by (rewrite !gsched_app; reflexivity).
  split; [erewrite ret_at; [exact A1|rewrite RUN; exact I3]|]. split; [erewrite ret_at; [exact D1|rewrite RUN; exact I4]|].
  split; [exact A5|]. split; [exact A6|]. rewrite A3 in D5. replace (en st + 3 + 1)%nat with (en st + 4)%nat in D5 by lia. replace (en st + 3 + 2)%nat with (en st + 5)%nat in D5 by lia.
  split; [exact D5|exact D6].
Qed.
Print Assumptions C68_other_message.

(** For every two EncryptPtxt calls of full-level plaintexts on one Encryptor there is a schedule in which both ciphertexts are made with the same mask u. *)
Theorem C68_same_mask : forall N pp om (ts : list (gthread N)) xs i j k st pool pta pka ptb pkb oa ob, wfp N pp -> ready pp ts xs ->
  two_on ts xs i j k (OEnc st pool) (EncryptPtxt pta pka) (EncryptPtxt ptb pkb) oa ob -> pk_id pka <> id0 -> pk_id pkb <> id0 ->
  length (prows pta) = length (Qm pp) -> length (prows ptb) = length (Qm pp) ->
  exists sch c c' d d', returned pp om sch ts xs i = Some (Ok (ACt c)) /\ returned pp om sch ts xs j = Some (Ok (ACt d)) /\
    EncryptMsgNew pp (oa 0%nat) pta pka (om k (en st + 1)%nat) (om k (en st + 2)%nat) (om k (en st + 3)%nat) = Ok c' /\ same_ct c c' /\
    EncryptMsgNew pp (ob 0%nat) ptb pkb (om k (en st + 1)%nat) (om k (en st + 4)%nat) (om k (en st + 5)%nat) = Ok d' /\ same_ct d d'.
Proof.
  intros N pp om ts xs i j k st pool pta pka ptb pkb oa ob WF [RD OK] (NIJ & Ei & Ej & Ex) NA NB LA LB.
  assert (LS : length (eQ st) = length (Qm pp)) by (apply (OK _ _ Ex)). pose proof (wf_Qpos _ _ WF) as NP.
  assert (OA : order_ok oa). { destruct (RD _ _ Ei) as (? & ? & o & E & O). unfold start in E. assert (o = oa) by congruence. subst o. exact O. }
  assert (OB : order_ok ob). { destruct (RD _ _ Ej) as (? & ? & o & E & O). unfold start in E. assert (o = ob) by congruence. subst o. exact O. }
  set (lv := (length (Qm pp) - 1)%nat). assert (LN : (lv < length (Qm pp))%nat) by (unfold lv; lia).
  assert (VA : Nat.min (plevel pta) (length (Qm pp) - 1) = lv) by (unfold plevel, lv; lia). assert (VB : Nat.min (plevel ptb) (length (Qm pp) - 1) = lv) by (unfold plevel, lv; lia).
  pose proof (enc_begin pp om k oa pta pka st pool false NA) as B1. cbv zeta in B1. cbn iota in B1.
  destruct (start_ct pp WF oa (pk_id pka) lv OA NA LN) as (SA1 & _ & _ & _ & _ & (xa0 & xa1 & HA) & SA6).
  destruct (start_ct pp WF ob (pk_id pkb) lv OB NB LN) as (SB1 & _ & _ & _ & _ & (xb0 & xb1 & HB) & SB6).
  set (ca := NewCiphertext (oa 0%nat) [(pk_id pka, tt)] (maxLevel pp) : ctT N) in *. set (cb := NewCiphertext (ob 0%nat) [(pk_id pkb, tt)] (maxLevel pp) : ctT N) in *.
  assert (CA : exists pt, (EncryptPtxt pta pka = EncryptMsg pt pka /\ Some pta = None) \/ (EncryptPtxt pta pka = EncryptPtxt pt pka /\ Some pta = Some pt)) by (exists pta; right; split; reflexivity).
  assert (CB : exists pt, (EncryptPtxt ptb pkb = EncryptMsg pt pkb /\ Some ptb = None) \/ (EncryptPtxt ptb pkb = EncryptPtxt pt pkb /\ Some ptb = Some pt)) by (exists ptb; right; split; reflexivity).
  destruct (enc13 pp om k oa (EncryptPtxt pta pka) (Some pta) pka NP CA 0%nat ca st pool SA1 LS) as (s1 & P1 & N1 & L1 & _). cbn [ptOf] in P1. rewrite VA in P1.
  pose proof (enc_begin pp om k ob ptb pkb s1 pool false NB) as B2. cbv zeta in B2. cbn iota in B2. fold cb in B2.
  destruct (enc13 pp om k ob (EncryptPtxt ptb pkb) (Some ptb) pkb NP CB 0%nat cb s1 pool SB1 L1) as (s2 & P2 & N2 & L2 & U2). cbn [ptOf] in P2, U2. rewrite VB in P2, U2.
  destruct (enc45 pp om k ob (EncryptPtxt ptb pkb) (Some ptb) pkb NB NP CB lv cb LN cb xb0 xb1 s2 pool HB) as (cb1 & P3 & HB1). rewrite !U2 in HB1.
  destruct (enc45 pp om k oa (EncryptPtxt pta pka) (Some pta) pka NA NP CA lv ca LN ca xa0 xa1 s2 pool HA) as (ca1 & P4 & HA1). rewrite !U2 in HA1.
  destruct (enc69 pp om k oa (EncryptPtxt pta pka) (Some pta) pka NA NP CA lv ca LN ca1 _ _ s2 pool HA1 L2) as (c & s3 & P5 & P6 & N3 & L3 & GA). cbn [ptOf] in GA.
  destruct (enc69 pp om k ob (EncryptPtxt ptb pkb) (Some ptb) pkb NB NP CB lv cb LN cb1 _ _ s3 pool HB1 L3) as (d & s4 & P7 & P8 & N4 & L4 & GB). cbn [ptOf] in GB.
  assert (R1 : gsolo pp om 4 (start k (EncryptPtxt pta pka) oa, OEnc st pool) = (eT k oa (EncryptPtxt pta pka) 4 lv ca, OEnc s1 pool)) by (rewrite solo_S, B1; fold ca; exact P1).
  assert (R2 : gsolo pp om 6 (start k (EncryptPtxt ptb pkb) ob, OEnc s1 pool) = (eT k ob (EncryptPtxt ptb pkb) 6 lv cb1, OEnc s2 pool)).
  { rewrite solo_S, B2. change 5%nat with (3 + 2)%nat. rewrite gsolo_add, P2. exact P3. }
  assert (R3 : gsolo pp om 6 (eT k oa (EncryptPtxt pta pka) 4 lv ca, OEnc s2 pool) = gsolo pp om 4 (eT k oa (EncryptPtxt pta pka) 6 lv ca1, OEnc s2 pool)).
  { change 6%nat with (2 + 4)%nat at 1. rewrite gsolo_add, P4. reflexivity. }
  destruct (seg pp om i 4 ts xs _ _ Ei Ex) as (I1 & X1 & O1). rewrite R1 in I1, X1. cbn [fst snd start gObj] in I1, X1.
  set (ts1 := fst (gsched pp om (repeat i 4) ts xs)) in *. set (xs1 := snd (gsched pp om (repeat i 4) ts xs)) in *.
  rewrite <- (O1 j) in Ej by congruence.
  destruct (seg pp om j 6 ts1 xs1 _ _ Ej X1) as (I2 & X2 & O2). rewrite R2 in I2, X2. cbn [fst snd start gObj] in I2, X2.
  set (ts2 := fst (gsched pp om (repeat j 6) ts1 xs1)) in *. set (xs2 := snd (gsched pp om (repeat j 6) ts1 xs1)) in *.
  rewrite <- (O2 i) in I1 by congruence.
  destruct (seg pp om i 6 ts2 xs2 _ _ I1 X2) as (I3 & X3 & O3). rewrite R3 in I3, X3. rewrite P6 in X3. cbn [eT gObj] in X3. rewrite <- (O3 j) in I2 by congruence.
  set (ts3 := fst (gsched pp om (repeat i 6) ts2 xs2)) in *. set (xs3 := snd (gsched pp om (repeat i 6) ts2 xs2)) in *.
  destruct (seg pp om j 4 ts3 xs3 _ _ I2 X3) as (I4 & X4 & O4). rewrite <- (O4 i) in I3 by congruence.
  destruct (encrypt_comps pp WF oa pta pka (om k (en st + 1)%nat) (om k (en st + 2)%nat) (om k (en st + 3)%nat) OA NA) as (c' & EC & GC). rewrite VA in GC.
  destruct (encrypt_comps pp WF ob ptb pkb (om k (en st + 1)%nat) (om k (en st + 4)%nat) (om k (en st + 5)%nat) OB NB) as (d' & ED & GD). rewrite VB in GD.
  exists (repeat i 4 ++ repeat j 6 ++ repeat i 6 ++ repeat j 4), c, c', d, d'.
  assert (RUN : gsched pp om (repeat i 4 ++ repeat j 6 ++ repeat i 6 ++ repeat j 4) ts xs = gsched pp om (repeat j 4) ts3 xs3) by (rewrite !gsched_app; reflexivity).
  split; [erewrite ret_at; [exact P5|rewrite RUN; exact I3]|]. split; [erewrite ret_at; [exact P7|rewrite RUN; exact I4]|].
  split; [exact EC|]. split; [|split; [exact ED|]].
  - eapply same_by_comps; [exact GA|]. intros x. rewrite GC. rewrite N2, N1. replace (en st + 1)%nat with (S (en st)) by lia. replace (en st + 2)%nat with (S (S (en st))) by lia. replace (en st + 3)%nat with (S (S (S (en st)))) by lia.
    destruct (string_dec x id0); [reflexivity|]. destruct (string_dec x (pk_id pka)); [reflexivity|]. symmetry. apply SA6; assumption.
  - eapply same_by_comps; [exact GB|]. intros x. rewrite GD. rewrite N3, N2, N1. replace (S (S (en st)) + 2)%nat with (en st + 4)%nat by lia. replace (S (en st + 4)) with (en st + 5)%nat by lia. replace (en st + 1)%nat with (S (en st)) by lia.
    destruct (string_dec x id0); [reflexivity|]. destruct (string_dec x (pk_id pkb)); [reflexivity|]. symmetry. apply SB6; assumption.
Qed.
Print Assumptions C68_same_mask.

(** Two ciphertexts made with the same mask under the same public key: anybody can subtract their components "0" and gets the difference of the two plaintexts up to the small errors. *)
Theorem C68_mask_reuse_leaks : forall N pp B (o o' : order) (pta ptb : poly N) pk u e0 e0' se0 se1 se0' se1' c d, wfp N pp -> order_ok o -> order_ok o' -> pk_id pk <> id0 ->
  wfplain pp pta -> wfplain pp ptb -> length (prows pta) = length (Qm pp) -> length (prows ptb) = length (Qm pp) -> is_sample pp B e0 se0 -> is_sample pp B e0' se0' ->
  EncryptMsgNew pp (o 0%nat) pta pk u se0 se1 = Ok c -> EncryptMsgNew pp (o' 0%nat) ptb pk u se0' se1' = Ok d ->
  forall j, (j < length (Qm pp))%nat -> eqm (mq (Qi pp j)) (add (row (prows (comp c id0)) j) (opp (row (prows (comp d id0)) j))) (add (add (pvalue pp pta j) (opp (pvalue pp ptb j))) (add e0 (opp e0'))).
Proof.
  intros N pp B o o' pta ptb pk u e0 e0' se0 se1 se0' se1' c d WF O O' NE WA WB LA LB SA SB EC ED j Hj. pose proof (wf_Qpos _ _ WF) as NP.
  pose proof (okQ pp WF j Hj) as K. set (lv := (length (Qm pp) - 1)%nat).
  assert (VA : Nat.min (plevel pta) (length (Qm pp) - 1) = lv) by (unfold plevel, lv; lia). assert (VB : Nat.min (plevel ptb) (length (Qm pp) - 1) = lv) by (unfold plevel, lv; lia).
  destruct (encrypt_comps pp WF o pta pk u se0 se1 O NE) as (c' & EC' & GC). destruct (encrypt_comps pp WF o' ptb pk u se0' se1' O' NE) as (d' & ED' & GD).
  assert (c' = c) by congruence. assert (d' = d) by congruence. subst c' d'. rewrite VA in GC. rewrite VB in GD.
  unfold comp. rewrite GC, GD. destruct (string_dec id0 id0); [|congruence]. cbn [prows].
  set (X := lvlQ1 pp lv intt (lvlQ2 pp lv r_mont (maskOf pp lv u) (qpQ (pk0 pk)))).
  assert (JL : (j <= lv)%nat) by (unfold lv; lia).
  assert (IX : inr (Qi pp j) (row X j)) by (unfold X; rewrite row_lvlQ1 by exact JL; apply canon_inr, intt_canon; exact K).
  assert (PV : forall pt : poly N, wfplain pp pt -> length (prows pt) = length (Qm pp) -> inr (Qi pp j) (row (plainRows pp lv pt) j) /\ row (plainRows pp lv pt) j = pvalue pp pt j).
  { intros pt W L. unfold plainRows, pvalue. destruct (pntt pt); cbn [negb].
    - rewrite row_lvlQ1 by exact JL. split; [apply canon_inr, intt_canon; exact K|reflexivity].
    - split; [apply W; lia|reflexivity]. }
  destruct (PV pta WA LA) as [A1 A2]. destruct (PV ptb WB LB) as [B1 B2].
  assert (EA : inr (Qi pp j) (row se0 j) /\ eqm (mq (Qi pp j)) (row se0 j) e0) by (apply SA; unfold maxLevel; lia).
  assert (EB : inr (Qi pp j) (row se0' j) /\ eqm (mq (Qi pp j)) (row se0' j) e0') by (apply SB; unfold maxLevel; lia).
  rewrite !(row_lvlQ2 pp) by exact JL.
  assert (OQ : okq (mq (Qi pp j))) by apply K.
  destruct (r_add_ok (Qi pp j) (row X j) (row se0 j) OQ IX (proj1 EA)) as [F1 F2]. destruct (r_add_ok (Qi pp j) _ (row (plainRows pp lv pta) j) OQ F1 A1) as [F3 F4].
  destruct (r_add_ok (Qi pp j) (row X j) (row se0' j) OQ IX (proj1 EB)) as [G1 G2]. destruct (r_add_ok (Qi pp j) _ (row (plainRows pp lv ptb) j) OQ G1 B1) as [G3 G4].
  rewrite F4, F2, G4, G2, A2, B2, (proj2 EA), (proj2 EB). apply eqm_eq. apply R_ext. intros i Hi. rewrite !co_add, !co_opp, !co_add. ring.
Qed.
Print Assumptions C68_mask_reuse_leaks.

(** ** Decryptors *)
(** For every two Decrypt calls on one mkckks Decryptor that succeed one after the other there is a schedule in which the first returns the message and scale of the second. *)
Theorem C68_decrypts_other : forall N pp om (ts : list (gthread N)) xs i j k pool sc ca sksa cb sksb oa ob pa pb, ready pp ts xs ->
  two_on ts xs i j k (ODec pool sc) (DecryptMsg ca sksa) (DecryptMsg cb sksb) oa ob ->
  snd (ckDecrypt pp oa pool (cv ca) sksa) = Ok pa -> snd (ckDecrypt pp ob pa (cv cb) sksb) = Ok pb ->
  exists sch, returned pp om sch ts xs i = Some (Ok (AMsg pb (csc cb))) /\ returned pp om sch ts xs j = Some (Ok (AMsg pb (csc cb))).
Proof.
  intros N pp om ts xs i j k pool sc ca sksa cb sksb oa ob pa pb [RD OK] (NIJ & Ei & Ej & Ex) HA HB.
  assert (LP : (0 < length (prows pool))%nat) by (apply (OK _ _ Ex)). pose proof (dec_result pp oa (cv ca) sksa pool pa LP HA) as LA.
  destruct (dec_prefix pp om k oa ca sksa pool sc pa LP HA) as (lva & cla & _ & RA). destruct (dec_prefix pp om k ob cb sksb pa (csc ca) pb LA HB) as (lvb & clb & _ & RB).
  destruct (seg pp om i 4 ts xs _ _ Ei Ex) as (I1 & X1 & O1). rewrite RA in I1, X1. cbn [fst snd start gObj] in I1, X1.
  set (ts1 := fst (gsched pp om (repeat i 4) ts xs)) in *. set (xs1 := snd (gsched pp om (repeat i 4) ts xs)) in *.
  rewrite <- (O1 j) in Ej by congruence.
  assert (RB' : gsolo pp om 5 (start k (DecryptMsg cb sksb) ob, ODec pa (csc ca)) = (GT k (DecryptMsg cb sksb) ob 4 lvb clb (Some (Ok (AMsg pb (csc cb)))), ODec pb (csc cb))).
  { change 5%nat with (4 + 1)%nat. rewrite gsolo_add, RB. reflexivity. }
  destruct (seg pp om j 5 ts1 xs1 _ _ Ej X1) as (I2 & X2 & O2). rewrite RB' in I2, X2. cbn [fst snd start gObj] in I2, X2.
  set (ts2 := fst (gsched pp om (repeat j 5) ts1 xs1)) in *. set (xs2 := snd (gsched pp om (repeat j 5) ts1 xs1)) in *.
  rewrite <- (O2 i) in I1 by congruence.
  destruct (seg pp om i 1 ts2 xs2 _ _ I1 X2) as (I3 & _ & O3). rewrite <- (O3 j) in I2 by congruence.
  exists (repeat i 4 ++ repeat j 5 ++ repeat i 1).
  assert (RUN : gsched pp om (repeat i 4 ++ repeat j 5 ++ repeat i 1) ts xs = gsched pp om (repeat i 1) ts2 xs2) by (rewrite !gsched_app; reflexivity).
  split; (erewrite ret_at; [|rewrite RUN; first [exact I3|exact I2]]; reflexivity).
Qed.
Print Assumptions C68_decrypts_other.

(** ... and one in which it returns its own polynomial with the second's scale. *)
Theorem C68_wrong_scale : forall N pp om (ts : list (gthread N)) xs i j k pool sc ca sksa cb sksb oa ob pa pb, ready pp ts xs ->
  two_on ts xs i j k (ODec pool sc) (DecryptMsg ca sksa) (DecryptMsg cb sksb) oa ob ->
  snd (ckDecrypt pp ob pool (cv cb) sksb) = Ok pb -> snd (ckDecrypt pp oa pb (cv ca) sksa) = Ok pa ->
  exists sch, returned pp om sch ts xs i = Some (Ok (AMsg pa (csc cb))).
Proof.
  intros N pp om ts xs i j k pool sc ca sksa cb sksb oa ob pa pb [RD OK] (NIJ & Ei & Ej & Ex) HB HA.
  assert (LP : (0 < length (prows pool))%nat) by (apply (OK _ _ Ex)). pose proof (dec_result pp ob (cv cb) sksb pool pb LP HB) as LB.
  destruct (dec_prefix pp om k ob cb sksb pool sc pb LP HB) as (lvb & clb & RB & _). destruct (dec_prefix pp om k oa ca sksa pb sc pa LB HA) as (lva & cla & _ & RA).
  destruct (seg pp om j 3 ts xs _ _ Ej Ex) as (I1 & X1 & O1). rewrite RB in I1, X1. cbn [fst snd start gObj] in I1, X1.
  set (ts1 := fst (gsched pp om (repeat j 3) ts xs)) in *. set (xs1 := snd (gsched pp om (repeat j 3) ts xs)) in *.
  rewrite <- (O1 i) in Ei by congruence.
  destruct (seg pp om i 4 ts1 xs1 _ _ Ei X1) as (I2 & X2 & O2). rewrite RA in I2, X2. cbn [fst snd start gObj] in I2, X2.
  set (ts2 := fst (gsched pp om (repeat i 4) ts1 xs1)) in *. set (xs2 := snd (gsched pp om (repeat i 4) ts1 xs1)) in *.
  rewrite <- (O2 j) in I1 by congruence.
  destruct (seg pp om j 1 ts2 xs2 _ _ I1 X2) as (I3 & X3 & O3). cbn [gObj] in X3. rewrite solo_S in X3. cbn [gsolo fst snd gObj] in X3. change (gexec pp om (GT k (DecryptMsg cb sksb) ob 3 lvb clb None) (ODec pa (csc ca))) with (GT k (DecryptMsg cb sksb) ob 4 lvb clb None : gthread N, ODec pa (csc cb)) in X3. cbn [snd] in X3.
  set (ts3 := fst (gsched pp om (repeat j 1) ts2 xs2)) in *. set (xs3 := snd (gsched pp om (repeat j 1) ts2 xs2)) in *.
  rewrite <- (O3 i) in I2 by congruence.
  destruct (seg pp om i 1 ts3 xs3 _ _ I2 X3) as (I4 & _ & _).
  exists (repeat j 3 ++ repeat i 4 ++ repeat j 1 ++ repeat i 1).
  assert (RUN : gsched pp om (repeat j 3 ++ repeat i 4 ++ repeat j 1 ++ repeat i 1) ts xs = gsched pp om (repeat i 1) ts3 xs3) by (rewrite !gsched_app; reflexivity).
  erewrite ret_at; [|rewrite RUN; exact I4]. reflexivity.
Qed.
Print Assumptions C68_wrong_scale.

(** If the second ciphertext has a lower level than the first and the Decryptor's plaintext, there is a schedule in which the first call panics, though it succeeds alone. *)
Theorem C68_panic : forall N pp om (ts : list (gthread N)) xs i j k pool sc ca sksa cb sksb oa ob pa la lb, ready pp ts xs ->
  two_on ts xs i j k (ODec pool sc) (DecryptMsg ca sksa) (DecryptMsg cb sksb) oa ob ->
  snd (ckDecrypt pp oa pool (cv ca) sksa) = Ok pa -> mwf (cv ca) -> mwf (cv cb) -> ctLevel (cv ca) = Ok la -> ctLevel (cv cb) = Ok lb -> (lb < la)%nat -> (lb < plevel pool)%nat ->
  exists sch, returned pp om sch ts xs i = Some Panic.
Proof.
  intros N pp om ts xs i j k pool sc ca sksa cb sksb oa ob pa la lb [RD OK] (NIJ & Ei & Ej & Ex) HA WA WB EA EB LAB LBP.
  assert (LP : (0 < length (prows pool))%nat) by (apply (OK _ _ Ex)).
  assert (OA : order_ok oa). { destruct (RD _ _ Ei) as (? & ? & o & E & O). unfold start in E. assert (o = oa) by congruence. subst o. exact O. }
  assert (OB : order_ok ob). { destruct (RD _ _ Ej) as (? & ? & o & E & O). unfold start in E. assert (o = ob) by congruence. subst o. exact O. }
  assert (CL : forall (c : ctT N) (o : order) l, mwf c -> order_ok o -> ctLevel c = Ok l -> exists c1, CopyNew (o 3%nat) c = Ok c1 /\ ctLevel c1 = Ok l).
  { clear. intros c o l W O E. assert (I0 : In id0 (keys c)) by (apply (mget_In_keys seq_dec); unfold ctLevel, cget in E; destruct (mget seq_dec c id0); [discriminate|discriminate E]).
    destruct (CopyNew_ok (o 3%nat) c) as (c1 & E1 & _ & G); [intros l0; apply O|exact W|exact I0|]. exists c1. split; [exact E1|]. unfold ctLevel, cget in *. rewrite G. exact E. }
  destruct (CL _ _ _ WA OA EA) as (c1 & C1 & L1). destruct (CL _ _ _ WB OB EB) as (d1 & C2 & L2). clear CL.
  set (p1 := truncPool pool la). destruct (truncPool_pos pool la LP) as (P1 & P2 & _). fold p1 in P1, P2.
  set (p2 := truncPool p1 lb). destruct (truncPool_pos p1 lb P1) as (_ & P3 & _). fold p2 in P3.
  assert (LEN : (length (prows p2) <= Nat.min la (plevel pool))%nat) by (rewrite P3; unfold plevel at 1; rewrite P2; lia).
  unfold ckDecrypt in HA. rewrite C1, L1 in HA. cbn [snd] in HA.
  pose proof (Decrypt_steps pp oa c1 sksa pool LP) as [DS DT]. rewrite DT in HA by exact L1. rewrite DS in HA. clear DS DT. unfold cutStep in HA. rewrite L1 in HA. cbn [rbind] in HA. fold p1 in HA.
  destruct (partStep pp oa sksa (Nat.min la (plevel pool)) c1) as [[lv c2]|] eqn:PS; cbn [rbind] in HA; [|discriminate].
  assert (LV : lv = Nat.min la (plevel pool)).
  { unfold partStep in PS. destruct (CopyNew (oa 0%nat) c1) as [e1|]; cbn [rbind] in PS; [|discriminate]. destruct (IDSetOf (oa 1%nat) e1) as [ids|]; cbn [rbind] in PS; [|discriminate].
    destruct (decLoop pp ids sksa (oa 2%nat (keys sksa)) e1) as [e2|]; cbn [rbind] in PS; [|discriminate]. destruct (1 <? length e2)%nat; [discriminate|]. congruence. }
  assert (RA : gsolo pp om 1 (start k (DecryptMsg ca sksa) oa, ODec pool sc) = (GT k (DecryptMsg ca sksa) oa 1 (Nat.min la (plevel pool)) c1 None, ODec p1 sc)).
  { unfold start. rewrite solo_S, dec_step. unfold decStep, cutStep. rewrite C1. cbn [rbind]. rewrite L1. reflexivity. }
  assert (RB : gsolo pp om 1 (start k (DecryptMsg cb sksb) ob, ODec p1 sc) = (GT k (DecryptMsg cb sksb) ob 1 (Nat.min lb (plevel p1)) d1 None, ODec p2 sc)).
  { unfold start. rewrite solo_S, dec_step. unfold decStep, cutStep. rewrite C2. cbn [rbind]. rewrite L2. reflexivity. }
  assert (RC : gOut (fst (gsolo pp om 2 (GT k (DecryptMsg ca sksa) oa 1 (Nat.min la (plevel pool)) c1 None, ODec p2 sc))) = Some Panic).
  { rewrite solo_S, dec_step. unfold decStep. rewrite PS. cbn [rbind goR]. rewrite solo_S, dec_step. unfold decStep, reduceStep in *. destruct (cget c2 id0) as [q|]; cbn [rbind] in *; [|discriminate].
    assert (F : (lv <? length (prows p2))%nat = false) by (apply Nat.ltb_ge; lia). rewrite F. reflexivity. }
  destruct (seg pp om i 1 ts xs _ _ Ei Ex) as (I1 & X1 & O1). rewrite RA in I1, X1. cbn [fst snd start gObj] in I1, X1.
  set (ts1 := fst (gsched pp om (repeat i 1) ts xs)) in *. set (xs1 := snd (gsched pp om (repeat i 1) ts xs)) in *.
  rewrite <- (O1 j) in Ej by congruence.
  destruct (seg pp om j 1 ts1 xs1 _ _ Ej X1) as (I2 & X2 & O2). rewrite RB in I2, X2. cbn [fst snd start gObj] in I2, X2.
  set (ts2 := fst (gsched pp om (repeat j 1) ts1 xs1)) in *. set (xs2 := snd (gsched pp om (repeat j 1) ts1 xs1)) in *.
  rewrite <- (O2 i) in I1 by congruence.
  destruct (seg pp om i 2 ts2 xs2 _ _ I1 X2) as (I3 & _ & _).
  exists (repeat i 1 ++ repeat j 1 ++ repeat i 2).
  assert (RUN : gsched pp om (repeat i 1 ++ repeat j 1 ++ repeat i 2) ts xs = gsched pp om (repeat i 2) ts2 xs2) by (rewrite !gsched_app; reflexivity).
  erewrite ret_at; [|rewrite RUN; exact I3]. exact RC.
Qed.
Print Assumptions C68_panic.

(** For every two Decrypt calls on one mkbfv Decryptor that succeed alone there is a schedule in which the first returns the second's message. *)
Theorem C68_bfv_other : forall N pp om (ts : list (gthread N)) xs i j k v ca sksa cb sksb oa ob pa pb,
  two_on ts xs i j k (ODecB v) (DecryptB ca sksa) (DecryptB cb sksb) oa ob ->
  bDecrypt pp oa ca sksa = Ok pa -> bDecrypt pp ob cb sksb = Ok pb ->
  exists sch, returned pp om sch ts xs i = Some (Ok (APoly pb)) /\ returned pp om sch ts xs j = Some (Ok (APoly pb)).
Proof.
  intros N pp om ts xs i j k v ca sksa cb sksb oa ob pa pb (NIJ & Ei & Ej & Ex) HA HB.
  assert (PRE : forall c sks o p v, bDecrypt pp o c sks = Ok p -> exists cl, gsolo pp om 2 (start k (DecryptB c sks) o, ODecB v) = (GT k (DecryptB c sks) o 2 0 cl None, ODecB p)).
  { clear. intros c sks o p v H. unfold bDecrypt in H. unfold start. rewrite !solo_S, decB_step. unfold decBStep.
    destruct (CopyNew (o 0%nat) c) as [c1|]; cbn [rbind goR] in *; [|discriminate]. destruct (IDSetOf (o 1%nat) c1) as [ids|]; cbn [rbind goR] in *; [|discriminate].
    destruct (decLoop pp ids sks (o 2%nat (keys sks)) c1) as [c2|]; cbn [rbind goR] in *; [|discriminate].
    rewrite !solo_S, decB_step. unfold decBStep. exists c2. destruct (cget c2 id0) as [p0|]; cbn [rbind goR gsolo] in *; [|discriminate]. match type of H with Ok ?a = Ok ?b => assert (EZ : a = b) by congruence end. rewrite EZ. reflexivity. }
  destruct (PRE _ _ _ _ v HA) as (cla & RA). destruct (PRE _ _ _ _ pa HB) as (clb & RB). clear PRE.
  destruct (seg pp om i 2 ts xs _ _ Ei Ex) as (I1 & X1 & O1). rewrite RA in I1, X1. cbn [fst snd start gObj] in I1, X1.
  set (ts1 := fst (gsched pp om (repeat i 2) ts xs)) in *. set (xs1 := snd (gsched pp om (repeat i 2) ts xs)) in *.
  rewrite <- (O1 j) in Ej by congruence.
  assert (RB' : gsolo pp om 3 (start k (DecryptB cb sksb) ob, ODecB pa) = (GT k (DecryptB cb sksb) ob 2 0 clb (Some (Ok (APoly pb))), ODecB pb)).
  { change 3%nat with (2 + 1)%nat. rewrite gsolo_add, RB. reflexivity. }
  destruct (seg pp om j 3 ts1 xs1 _ _ Ej X1) as (I2 & X2 & O2). rewrite RB' in I2, X2. cbn [fst snd start gObj] in I2, X2.
  set (ts2 := fst (gsched pp om (repeat j 3) ts1 xs1)) in *. set (xs2 := snd (gsched pp om (repeat j 3) ts1 xs1)) in *.
  rewrite <- (O2 i) in I1 by congruence.
  destruct (seg pp om i 1 ts2 xs2 _ _ I1 X2) as (I3 & _ & O3). rewrite <- (O3 j) in I2 by congruence.
  exists (repeat i 2 ++ repeat j 3 ++ repeat i 1).
  assert (RUN : gsched pp om (repeat i 2 ++ repeat j 3 ++ repeat i 1) ts xs = gsched pp om (repeat i 1) ts2 xs2) by (rewrite !gsched_app; reflexivity).
  split; (erewrite ret_at; [|rewrite RUN; first [exact I3|exact I2]]; reflexivity).
Qed.
Print Assumptions C68_bfv_other.

(** ** A concrete run: eight goroutines, one Encryptor, one mkckks Decryptor, one mkbfv Decryptor and one plaintext of a mkrlwe caller *)
Definition exo_bob : publicKey 8 := PK "bob" (gQP exg_st) (gQP exg_st).
Definition exo_hi : ckct 8 := CK (ex_ct 3 ["alice"]%string) sc1.
Definition exo_lo : ckct 8 := CK (ex_ct 1 ["alice"]%string) sc3.
Definition exo_ts : list (gthread 8) :=
  [start 0 (EncryptMsg (ex_pt true) exg_pk) ex_ord; start 0 (EncryptMsg (ex_pt false) exo_bob) ex_ord; start 0 (EncryptPtxt (ex_pt true) exg_pk) ex_ord; start 0 (EncryptPtxt (ex_pt false) exg_pk) ex_ord;
   start 1 (DecryptMsg exo_hi ex_k) ex_ord; start 1 (DecryptMsg exo_lo ex_k) ex_ord; start 2 (DecryptB (ex_ct 3 ["alice"]%string) ex_k) ex_ord; start 2 (DecryptB (ex_ct 3 []) ex_k) ex_ord;
   start 3 (DecryptR (ex_ct 3 ["alice"]%string) ex_k) ex_ord].
Definition exo_xs : list (obj 8) := [OEnc (newEst ex_pp) (ex_pt false); ODec (newPool ex_pp) f_one; ODecB (ex_pt false); OPlain (ex_pt true)].
Lemma exo_ready : ready ex_pp exo_ts exo_xs.
Proof.
  split.
  - intros j t E. assert (H : Forall (fun t : gthread 8 => exists k c o, t = start k c o /\ order_ok o) exo_ts) by (unfold exo_ts; repeat constructor; eexists _, _, _; (split; [reflexivity|exact ex_ord_ok])).
    rewrite Forall_forall in H. apply H. apply (nth_error_In _ _ E).
  - intros k x E. assert (H : Forall (obj_ok (N := 8) ex_pp) exo_xs).
    { unfold exo_xs. constructor; [cbn [obj_ok newEst eQ]; apply tab_length|]. constructor; [split; [cbn [newPool zeroP prows]; rewrite tab_length; cbn; lia|reflexivity]|]. constructor; [exact Logic.I|].
      constructor; [|constructor]. cbn [obj_ok ex_pt prows]. cbn. lia. }
    rewrite Forall_forall in H. apply H. apply (nth_error_In _ _ E).
Qed.
Lemma exo_keys : keys_ok ex_pp (fun _ => True) (fun _ => ex_s) ex_k /\ keys ex_k = ["alice"%string].
Proof. apply PropsBfv.ex_keys. repeat constructor; cbn; tauto. Qed.
Lemma exo_keys' P : keys_ok ex_pp P (fun _ => ex_s) ex_k.
Proof. destruct exo_keys as [[A B] _]. split; [exact A|intros id k Hk; destruct (B id k Hk) as [B1 B2]; split; [exact B1|intros _; apply B2; exact Logic.I]]. Qed.
(** what the decryptions give, one after the other from any buffer *)
Lemma exo_dec (pool : poly 8) m : (0 < m <= 3)%nat -> (0 < length (prows pool))%nat -> pntt pool = false ->
  exists p, snd (ckDecrypt ex_pp ex_ord pool (ex_ct m ["alice"]%string) ex_k) = Ok p /\ length (prows p) = Nat.min m (length (prows pool)) /\ pntt p = false.
Proof.
  intros Hm LP FP. pose proof (PropsCkksEx.ex_ct_wf m ["alice"]%string Hm ex_nd1) as W.
  destruct (dec_ok ex_pp ex_wf ex_ord pool (ex_ct m ["alice"]%string) (fun _ => ex_s) ex_k (m - 1) false) as (p & A & B & C & _); [cbn; lia|exact ex_ord_ok|exact W|apply exo_keys'| |exact LP|exact FP|].
  { rewrite (proj2 exo_keys). intros x Hx. exact Hx. }
  exists p. split; [exact A|]. split; [|exact C]. rewrite B. unfold plevel. lia.
Qed.
Lemma exo_bdec l : l = nil \/ l = ["alice"%string] -> exists p, bDecrypt ex_pp ex_ord (ex_ct 3 l) ex_k = Ok p.
Proof.
  intros H. assert (ND : NoDup (id0 :: l)) by (destruct H as [->| ->]; [repeat constructor; cbn; tauto|exact ex_nd1]).
  destruct (bDecrypt_ok ex_pp ex_wf ex_ord (ex_ct 3 l) (fun _ => ex_s) ex_k ex_ord_ok (PropsCkksEx.ex_ct_wf 3 l ltac:(lia) ND) (exo_keys' _)) as (p & A & _). exists p. exact A.
Qed.
Example C68_nonvacuous : wfp 8 ex_pp /\ ready ex_pp exo_ts exo_xs /\
  two_on exo_ts exo_xs 0 1 0 (OEnc (newEst ex_pp) (ex_pt false)) (EncryptMsg (ex_pt true) exg_pk) (EncryptMsg (ex_pt false) exo_bob) ex_ord ex_ord /\
  two_on exo_ts exo_xs 2 3 0 (OEnc (newEst ex_pp) (ex_pt false)) (EncryptPtxt (ex_pt true) exg_pk) (EncryptPtxt (ex_pt false) exg_pk) ex_ord ex_ord /\
  length (prows (ex_pt true)) = length (Qm ex_pp) /\ length (prows (ex_pt false)) = length (Qm ex_pp) /\ pk_id exg_pk <> id0 /\ pk_id exo_bob <> id0 /\
  two_on exo_ts exo_xs 4 5 1 (ODec (newPool ex_pp) f_one) (DecryptMsg exo_hi ex_k) (DecryptMsg exo_lo ex_k) ex_ord ex_ord /\
  (exists pa pb, snd (ckDecrypt ex_pp ex_ord (newPool ex_pp) (cv exo_hi) ex_k) = Ok pa /\ snd (ckDecrypt ex_pp ex_ord pa (cv exo_lo) ex_k) = Ok pb) /\
  (exists pb pa, snd (ckDecrypt ex_pp ex_ord (newPool ex_pp) (cv exo_lo) ex_k) = Ok pb /\ snd (ckDecrypt ex_pp ex_ord pb (cv exo_hi) ex_k) = Ok pa) /\
  mwf (cv exo_hi) /\ mwf (cv exo_lo) /\ ctLevel (cv exo_hi) = Ok 2%nat /\ ctLevel (cv exo_lo) = Ok 0%nat /\ (0 < plevel (N := 8) (newPool ex_pp))%nat /\
  two_on exo_ts exo_xs 6 7 2 (ODecB (ex_pt false)) (DecryptB (ex_ct 3 ["alice"]%string) ex_k) (DecryptB (ex_ct 3 []) ex_k) ex_ord ex_ord /\
  (exists pa pb, bDecrypt ex_pp ex_ord (ex_ct 3 ["alice"]%string) ex_k = Ok pa /\ bDecrypt ex_pp ex_ord (ex_ct 3 []) ex_k = Ok pb).
Proof.
  assert (T : forall i j k x ci cj, i <> j -> nth_error exo_ts i = Some (start k ci ex_ord) -> nth_error exo_ts j = Some (start k cj ex_ord) -> nth_error exo_xs k = Some x -> two_on exo_ts exo_xs i j k x ci cj ex_ord ex_ord)
    by (intros; repeat split; assumption).
  assert (NP : length (prows (newPool (N := 8) ex_pp)) = 3%nat) by (cbn [newPool zeroP prows]; rewrite tab_length; reflexivity).
  split; [exact ex_wf|]. split; [exact exo_ready|]. split; [apply T; [discriminate|reflexivity..]|]. split; [apply T; [discriminate|reflexivity..]|].
  split; [reflexivity|]. split; [reflexivity|]. split; [discriminate|]. split; [discriminate|]. split; [apply T; [discriminate|reflexivity..]|]. split; [|split].
  - destruct (exo_dec (newPool ex_pp) 3) as (pa & A & LA & FA); [lia|rewrite NP; lia|reflexivity|]. destruct (exo_dec pa 1) as (pb & B & _); [lia|rewrite LA, NP; cbn; lia|exact FA|]. exists pa, pb. split; assumption.
  - destruct (exo_dec (newPool ex_pp) 1) as (pb & A & LA & FA); [lia|rewrite NP; lia|reflexivity|]. destruct (exo_dec pb 3) as (pa & B & _); [lia|rewrite LA, NP; cbn; lia|exact FA|]. exists pb, pa. split; assumption.
  - split; [apply (PropsCkksEx.ex_ct_wf 3 ["alice"]%string ltac:(lia) ex_nd1)|]. split; [apply (PropsCkksEx.ex_ct_wf 1 ["alice"]%string ltac:(lia) ex_nd1)|]. split; [reflexivity|]. split; [reflexivity|].
    split; [unfold plevel; rewrite NP; lia|]. split; [apply T; [discriminate|reflexivity..]|].
    destruct (exo_bdec ["alice"%string]) as (pa & A); [right; reflexivity|]. destruct (exo_bdec nil) as (pb & B); [left; reflexivity|]. exists pa, pb. split; assumption.
Qed.
(** "Goroutines may share a Decryptor" is false: here a call returns something else than alone. *)
Theorem C68_shared_refuted : exists sch p a, ready ex_pp exo_ts exo_xs /\ returned ex_pp (fun _ => exg_om) sch exo_ts exo_xs 4 = Some (Ok (AMsg p a)) /\
  ~ same_answer (Ok (AMsg p a)) (alone ex_pp exg_om ex_ord (DecryptMsg exo_hi ex_k) (ODec (newPool ex_pp) f_one)).
Proof.
  destruct C68_nonvacuous as (_ & RD & _ & _ & _ & _ & _ & _ & TW & _).
  assert (NP : length (prows (newPool (N := 8) ex_pp)) = 3%nat) by (cbn [newPool zeroP prows]; rewrite tab_length; reflexivity).
  destruct (exo_dec (newPool ex_pp) 3) as (pa & A & LA & FA); [lia|rewrite NP; lia|reflexivity|]. destruct (exo_dec pa 1) as (pb & B & LB & _); [lia|rewrite LA, NP; cbn; lia|exact FA|].
  destruct (C68_decrypts_other 8 ex_pp (fun _ => exg_om) exo_ts exo_xs 4 5 1 _ _ exo_hi ex_k exo_lo ex_k ex_ord ex_ord pa pb RD TW A B) as (sch & R1 & _).
  exists sch, pb, sc3. split; [exact RD|]. split; [exact R1|]. unfold alone. cbn [cv exo_hi csc]. rewrite A. cbn [rbind same_answer]. intros [E _]. rewrite E in LB. rewrite LA, NP in LB. cbn in LB. discriminate.
Qed.
Print Assumptions C68_shared_refuted.
