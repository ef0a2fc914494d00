(** The network evaluated by cnn/cnn_test.go (TestCNN), in three forms:
    - on plain numbers ([cnn_out]: convolution, square, fully connected layer, square, fully connected layer);
    - the packing of image and weights into message vectors (encryptImage ... encryptB2, mask);
    - the homomorphic inference ([Inference]), and the same calls as one client program ([cnn_prog], in the language of CkksHoist.v). *)
From Flocq Require Import Core BinarySingleNaN.
From Coq Require Import Reals.
From Verif Require Import Base IdSetModel KeySetModel NumTheory Negacyclic Ntt Word BasisExt Rows RlweModel KeyGenModel CtModel KeySwitchModel FloatModel CkksFloat CkksModel Slots PropsSlots CkksSlots CkksCircuit CkksHoist CnnModel.
Open Scope Z_scope.

(** ** the plain network *)
Definition tsum (n : nat) (f : nat -> CC) : CC := fold_left (fun acc k => cadd acc (f k)) (seq 0 n) (0%R, 0%R).
Record network := Net { kernels : nat -> nat -> nat -> CC; FC1 : nat -> nat -> CC; B1 : nat -> CC; FC2 : nat -> nat -> CC; B2 : nat -> CC }.
Section Plain.
  Variables (w : network) (image : nat -> nat -> CC).
  (** 5 kernels of 4 x 4, stride 2, on a 28 x 28 image: 13 x 13 outputs each *)
  Definition conv (i j k : nat) : CC := tsum 4 (fun a => tsum 4 (fun b => cmul (kernels w i a b) (image (2 * j + a)%nat (2 * k + b)%nat))).
  Definition square (x : CC) : CC := cmul x x.
  (** 64 hidden units; the flattened index of output (i, j, k) is i + 5 (13 j + k) *)
  Definition hidden (u : nat) : CC := cadd (tsum 5 (fun i => tsum 13 (fun j => tsum 13 (fun k => cmul (square (conv i j k)) (FC1 w (i + 5 * (j * 13 + k)) u))))) (B1 w u).
  (** 10 classes *)
  Definition cnn_out (c : nat) : CC := cadd (tsum 64 (fun u => cmul (square (hidden u)) (FC2 w u c))) (B2 w c).
End Plain.

(** ** packing.  An array filled by a sequence of writes: the last write to an index wins, the rest is 0 *)
Definition filled (ws : list (nat * CC)) (x : nat) : CC := fold_left (fun v w => if (fst w =? x)%nat then snd w else v) ws (0%R, 0%R).
Definition for_ {A} (n : nat) (body : nat -> list A) : list A := flat_map body (seq 0 n).
Section Pack.
  Variables (w : network) (image : nat -> nat -> CC).
  (** cnn_test.go:355-373 *)
  Definition imageWrites : list (nat * CC) :=
    for_ 5 (fun k => for_ 14 (fun i => for_ 14 (fun j =>
      let index := (14 * 14 * k + 14 * i + j)%nat in
      [(index, image (2 * i) (2 * j)); (index + 1024, image (2 * i) (2 * j + 1)); (index + 2048, image (2 * i + 1) (2 * j)); (index + 3072, image (2 * i + 1) (2 * j + 1))]%nat))).
  (** cnn_test.go:375-377 and 425-429: the second half of the array repeats the first *)
  Definition doubled (a : nat -> CC) (x : nat) : CC := if (x <? 4096)%nat then a x else a (x - 4096)%nat.
  Definition encodedImage : nat -> CC := doubled (filled imageWrites).
  (** cnn_test.go:390-423, array n of the four: rows r = 2 (n / 2), columns c = 2 (n mod 2) upwards *)
  Definition kernelWrites (n : nat) : list (nat * CC) :=
    let r := (2 * (n / 2))%nat in let c := (2 * (n mod 2))%nat in
    for_ 5 (fun i => for_ 13 (fun j => for_ 13 (fun k =>
      let index := (14 * 14 * i + 14 * j + k)%nat in
      [(index, kernels w i r c); (index + 1024, kernels w i r (c + 1)); (index + 2048, kernels w i (r + 1) c); (index + 3072, kernels w i (r + 1) (c + 1))]%nat))).
  Definition encodedKernel (n : nat) : nat -> CC := doubled (filled (kernelWrites n)).
  (** cnn_test.go:455-465: row l of tempFC1 *)
  Definition tempFC1 (l : nat) : nat -> CC :=
    filled (for_ 5 (fun i => for_ 13 (fun j => for_ 13 (fun k => [(14 * 14 * i + 14 * j + k, FC1 w (i + 5 * (j * 13 + k)) l)]%nat)))).
  (** cnn_test.go:467-474: the loops write every index 128 j + k once *)
  Definition encodedFC1 (i : nat) (x : nat) : CC := tempFC1 (x / 128) (128 * ((i + x / 128) mod 8) + x mod 128)%nat.
  (** cnn_test.go:490-501 *)
  Definition encodedFC2 (i : nat) : CC := let x := (i / 128)%nat in let y := (i mod 128)%nat in if (y <? 10)%nat && (x <? 64)%nat then FC2 w x y else (0%R, 0%R).
  (** cnn_test.go:515-518 *)
  Definition encodedB1 : nat -> CC := filled (for_ 64 (fun i => [(i * 128, B1 w i)]%nat)).
  (** cnn_test.go:532-535 *)
  Definition encodedB2 : nat -> CC := filled (for_ 10 (fun i => [(i, B2 w i)])).
End Pack.
(** cnn_test.go:142-146 *)
Definition encodedMask (i : nat) : CC := if (i mod 128 =? 0)%nat then (1%R, 0%R) else (0%R, 0%R).
(** a message of 8192 values (LogSlots = 13) in a ring with N/2 slots: the encoder repeats it *)
Definition placed (v : nat -> CC) : slots := fun j => v (j mod 8192)%nat.
(** the messages in the order of the inputs of [cnn_prog]: image, four kernel arrays, eight FC1 arrays, B1, FC2, B2 *)
Definition cnn_inputs (w : network) (image : nat -> nat -> CC) : list slots :=
  map placed (encodedImage image :: map (encodedKernel w) (seq 0 4) ++ map (encodedFC1 w) (seq 0 8) ++ [encodedB1 w; encodedFC2 w; encodedB2 w]).

(** ** the homomorphic inference *)
Section Model.
  Context {N : nat} (pp : rparams) (crs : crsT N) (pscale : f64) (rs : rlkset N) (rk : rotset N) (w : nat -> nat -> nat -> order).
  Notation ckct := (ckct N). Notation evalst := (evalst N). Notation hoisted := (hoisted N).
  (** cnn_test.go:133-140: HoistedForm of every element of a slice *)
  Fixpoint hoistAll (n : nat) (l : list ckct) : res (list hoisted) :=
    match l with nil => Ok nil | c :: l => h <- HoistedForm pp (w 0%nat n 0%nat) c ;; hs <- hoistAll (S n) l ;; Ok (h :: hs) end.
  (** cnn_test.go:132-140, 152-162.  [w k] gives the orders of stage k *)
  Definition Inference (st : evalst) (ctImage : ckct) (ctKernels ctFC1 : list ckct) (ctB1 ctFC2 ctB2 : ckct) (mask : poly N) (maskScale : f64) : res (evalst * ckct) :=
    ctImageHoisted <- HoistedForm pp (w 0%nat 0%nat 0%nat) ctImage ;;
    ctKernelsHoisted <- hoistAll 1 ctKernels ;;
    ctFC1Hoisted <- hoistAll (1 + length ctKernels) ctFC1 ;;
    '(st, convOut) <- Convolution pp crs pscale rs rk (w 1%nat) st ctImage ctImageHoisted ctKernels ctKernelsHoisted ;;
    convOutHoisted <- HoistedForm pp (w 2%nat 0%nat 0%nat) convOut ;;
    square1Out <- MulRelinHoistedNew pp (w 2%nat 1%nat 0%nat) crs pscale convOut convOut (Some convOutHoisted) (Some convOutHoisted) rs ;;
    square1OutHoisted <- HoistedForm pp (w 2%nat 2%nat 0%nat) square1Out ;;
    '(st, fc1Out) <- FC1Layer pp crs pscale rs rk (w 3%nat) st square1Out square1OutHoisted ctFC1 ctFC1Hoisted ctB1 ;;
    fc1OutHoisted <- HoistedForm pp (w 4%nat 0%nat 0%nat) fc1Out ;;
    square2Out <- MulRelinHoistedNew pp (w 4%nat 1%nat 0%nat) crs pscale fc1Out fc1Out (Some fc1OutHoisted) (Some fc1OutHoisted) rs ;;
    FC2Layer pp crs pscale rs rk (w 5%nat) st square2Out ctFC2 ctB2 mask maskScale.
End Model.

(** ** the same calls as one program: registers 0 .. 15 are the inputs, hoisting registers in order of creation *)
(** [cnt] rounds of rotate-and-add on register a (the next registers are a + 1, a + 2, ...) *)
Fixpoint rotAdds (cnt : nat) (step : Z) (a : nat) : list xinstr :=
  match cnt with O => nil | S cnt => XK (KRot a step) :: XK (KAdd a (S a)) :: rotAdds cnt (2 * step) (S (S a)) end.
Definition cnn_prog : list xinstr :=
  map XForm (seq 0 13) ++
  (* Convolution *)
  [XMul 0 1 0 1;
   XRot 0 1 0; XForm 17; XMul 17 2 13 2; XK (KAdd 16 18);
   XRot 0 14 0; XForm 20; XMul 20 3 14 3; XK (KAdd 19 21);
   XRot 0 15 0; XForm 23; XMul 23 4 15 4; XK (KAdd 22 24)] ++ rotAdds 1 2048 25 ++ rotAdds 1 1024 27 ++
  (* square *)
  [XForm 29; XMul 29 29 16 16; XForm 30] ++
  (* FC1Layer *)
  [XCopy 30; XRot 30 0 17; XForm 32; XMul 32 5 18 5; XCopy 33] ++
  flat_map (fun i => [XCopy 30; XRot 30 (Z.of_nat i * 128) 17; XForm (32 + 4 * i); XMul (32 + 4 * i) (5 + i) (18 + i) (5 + i); XK (KAdd (30 + 4 * i) (33 + 4 * i))]) (seq 1 7) ++
  rotAdds 7 1 62 ++ [XK (KAdd 76 13)] ++
  (* square *)
  [XForm 77; XMul 77 77 26 26] ++
  (* FC2Layer *)
  [XK (KPt 78 0)] ++ rotAdds 4 (-1) 79 ++ [XK (KMul 87 14)] ++ rotAdds 6 128 88 ++ [XK (KAdd 100 15)].
