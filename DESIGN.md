# Formal model of SNUCP/MKHE-KKLSS in Rocq (Coq 8.16.1)

## 1. Layout

All files are in `rocq/theories` (logical name `Verif`).  Every definition of a model file cites the file and lines of /repo it models.

| layer | model files | specification vocabulary | proofs | models |
|---|---|---|---|---|
| base | `Base.v` | | | `res` (a Go panic is `Panic`), Go maps as association lists with distinct keys |
| containers | `IdSetModel.v`, `KeySetModel.v`, `CtModel.v`, `HeapModel.v` | `IdSetSpec.v`, `KeySetSpec.v`, `CtSpec.v` | `IdSetProofs.v`, `KeySetProofs.v`, `CtProofs.v`, `HeapProofs.v` | mkrlwe/idset.go, keys.go, elements.go; object identity (aliasing) on a heap |
| words | `Word.v`, `FloatModel.v`, `BasisExt.v` | `BasisSpec.v` | `FloatProofs.v`, `BasisExtProofs.v`, `DecompProofs.v` | uint64 Montgomery/Barrett arithmetic, float64 quotient correction (Flocq), mkrlwe/basis_extension.go column by column |
| ring | `Negacyclic.v`, `Ntt.v`, `Rows.v`, `Galois.v`, `Slots.v`, `NumTheory.v` | same | same | Z[X]/(X^N+1), automorphisms, residue rows, slots |
| mkrlwe | `RlweModel.v`, `KeyGenModel.v`, `KeySwitchModel.v`, `IndexModel.v` | `SchemeSpec.v`, `LeakSpec.v` | `ExtProd.v`, `ExtProps.v`, `KeyGenProofs.v`, `EncDecProofs.v`, `Digits.v`, `KsLoops.v`, `RotProofs.v`, `ConjProofs.v`, `MulProofs.v` | params.go, keygen.go, encryptor.go, decryptor.go, keyswitch.go, keyswitch_hoisted.go |
| mkrlwe with buffers | `KsPool.v` | | `KsPoolProofs.v` | the same functions with every scratch buffer of the KeySwitcher as state |
| mkckks | `CkksFloat.v`, `CkksModel.v`, `EncMsgModel.v`, `DecryptorModel.v`, `HelperModel.v`, `BitRev.v` | in the `Props` files | `CkksFloatProofs.v`, `CkksProofs.v`, `CkksRescale.v`, `BitRevProofs.v` | elements.go, evaluator.go, decryptor.go, encryptor.go, utils.go |
| mkbfv with buffers | `BfvPool.v` | | `BfvPoolProofs.v` | evaluator.go, keyswitch*.go, keys.go, basis_extension.go with every buffer as state |
| mkckks with buffers | `EvalPool.v`, `ShareModel.v` | | `EvalPoolProofs.v` | evaluator.go with every buffer as state; concurrent MulRelinNew as interleaved steps |
| mkbfv | `BfvModel.v`, `BfvMulModel.v` | `PropsBfvConv.v`, `PropsBfvMul.v` (top) | `BfvConv.v`, `BfvGadget.v`, `BfvDig.v`, `BfvKey.v`, `BfvCross.v`, `BfvMulProofs.v` | evaluator.go, decryptor.go, basis_extension.go, keygen.go, keyswitch.go, keyswitch_hoisted.go |
| cnn | `CnnModel.v`, `CnnNet.v`, `CnnSetup.v` | `CnnNet.v` (top), `PropsCnn.v` | `PropsCnn.v`, `CnnProgProofs.v`, `CnnSlots.v`, `CnnEval.v` | cnn/cnn.go; the session of cnn/cnn_test.go |
| properties | | | `Props*.v`, `ShareEx.v` | the theorems named in MANIFEST.json, non-vacuity theorems, `Print Assumptions` |
| instances | `Instance.v`, `PropsCkksEx.v`, `ShareEx.v`, `PropsBfvMulEx.v`, `PropsBfvCircuitEx.v` | | | concrete parameters, keys and ciphertexts that meet the hypotheses |

The reading order for a reviewer: `Base.v`, `Negacyclic.v` (top), `Rows.v` (top), `SchemeSpec.v`, `CtSpec.v`, `BasisSpec.v`, then any `Props*.v`.

## 2. Modelling decisions

- A polynomial is a list of rows, one per RNS modulus; a row is an element of `R N` (N integer coefficients).  Rows hold the words the Go slices hold, so
  "reduced", "at most q" and "any 64-bit word" are distinct hypotheses (`canon`, `inr`, `wrd`).
- `phase pp s ct j` is `c_0 + sum over parties of c_id * s_id` modulo Q_j: the textbook multi-key decryption, defined without any function of the model.
- Randomness is an argument: the sampled rows are universally quantified and only their size is assumed (`is_sample`, `small_ok`).
- Go map iteration order is an argument: `order` gives an arbitrary permutation at every loop (`order_ok`), and theorems quantify over it.
- Errors and panics: nil-map reads, missing map entries, out-of-range slices and explicit `panic` are `Panic`.
- Floats: binary64 through Flocq with round-to-nearest-even; big.Float at the precision the code sets.
- Stateful claims (C17, C27, C31, C32, C41) are about models in which buffers are state, and quantify over the initial contents or the whole history/schedule.
- Expectations that the code does not meet are stated as properties of what it does, with a `_refuted` theorem exhibiting (or quantifying over) the failing case.

## 3. Per-property plan

- C01 IDSet: heap of map objects, operations over object handles, refinement to predicates on strings, induction over the operation history.
- C02 key sets: association-list maps, refinement to "last Add not followed by Del", induction over histories.
- C03 containers: ciphertext = map id -> residue rows; proofs over all maps; deep copies on the heap model.
- C04 CRS indices: NewParameters/GenDefaultRotationKeys loops over arbitrary LogN; binary expansion.
- C05 Beta: Flocq model of float64 division and Ceil; exactness for all operands below 2^52.
- C06 words: Z with explicit mod 2^64; exactness theorems for all operands.
- C07 tables: generation loops over the word model; Fermat inverse.
- C08-C10 ModUp/ModDown: per-coefficient word model including the float64 quotient; refutations by concrete witnesses.
- C11 Decompose: block/level index logic and the ModUp theorem, then whole polynomials.
- C12 external product; C13 keygen equations; C14 Enc/Dec; C15 Decrypt; C20 MulAndRelin; C21 hoisting; C22 Rotate; C24 Conjugate: polynomial model over the negacyclic ring, integer lifts, explicit noise bounds.
- C16 BFV Decrypt: model of the loop, refutation of "a missing key is reported".
- C17, C27, C31, C32, C41: stateful models with pools and flags.
- C18, C19, C26, C28, C29, C30, C44: evaluator model with float64 scales.
- C23 rotation amounts: the chain loop, over all k.
- C25 slots: evaluation at odd powers of a primitive 2N-th root, real and modulo t.
- C33 CNN: the rotate-and-add loops as programs over the evaluator model, error accumulated by induction.
- C34 bit reversal: the loop with fuel, all powers of two, non-termination for N=3.
- C35, C36, C37, C42, C43: keygen index logic; refutations.
- C38 helpers of utils.go.
- C39 BFV base conversions on whole polynomials; C40 BFV multiplication from key generation to decryption, by CRT over the blocks of R = Q*QMul.
- C45 BFV addition and subtraction (per component, all identity sets); C46 BFV rotation/conjugation through the mkrlwe theorems.
- C47 BFV programs: `brun` over the evaluator model with registers (`BfvCircuit.v`); induction over the program with the invariant `breg` (parties, level, `encodes` with the accumulated noise), started from key generation and EncryptMsgNew. The bfv encoder enters by its contract `bencoded` (t times the encoded polynomial is Q m up to a bounded error).
- C48 CKKS programs: `krun` over the evaluator model with registers and the evaluator's pools (`CkksCircuit.v`); the specification runs the program on vectors of complex slots (`kplain_run`) and carries per register parties, level, float scale, coefficient bound, slot bound and error bound (`kstep`). Invariant `kreg`, induction over the program; slot algebra and triangle inequalities in `CkksSlots.v`, drift of the stored float scale in `PropsCkksScale.v`. The ckks encoder enters by its contract `kencoded` (an integer polynomial whose slots over the scale are near the vector).
- C49 BFV scratch buffers: `BfvPool.v` restates the evaluator, key switcher, key set and base converter of mkbfv with every buffer (struct fields of keyswitch.go:6-28, polyRPools and hoisted pools of keys.go, the pool of the mkrlwe KeySwitcher of `KsPool.v`) as state; `bcall` runs one exported operation. Two-run simulation (`rsim`) from arbitrary buffers of the right shapes (`BfvPoolProofs.v`): results equal those of the functions with local buffers (`BfvMulModel.v`, `BfvModel.v`). Hypothesis: alpha divides #Q, without which key generation panics (`C40_keygen_uneven_blocks_refuted`).
- C50 shipped parameter sets: `tools/gen_params.py` reads the moduli from mkbfv_test.go, mkckks_test.go and cnn_test.go and writes `Shipped.v`: every modulus with a Pocklington certificate (checked in Coq by `Pock.v`) and a primitive 2N-th root. `PropsShipped.v` derives `wfb`/`wfp` of the sets, evaluates the noise bounds of C47 at them (64 parties, B = 19, ternary secrets) and replaces the noise premise of `C47_end_to_end` by a bit count of the program. The CRS is `NewCRS` on arbitrary words and the rotation keys are the default ones, so no premise on rotation amounts remains. Key existence for every list of parties: `setup`, `C50_nonvacuous15`.
- C51 generators and encryptors: `GenPool.v` is the stateful version of `KeyGenModel.v`/`BfvMulModel.v` (key generation) and of `CtModel.Encrypt`: pools, destinations with old content, samplers as streams with a position. `GenProofs.v`/`EncPoolProofs.v` simulate it by the pure functions (every pool is written before it is read, on all rows that are read); `PropsGen.v` states the history theorem with an inductive set of reachable states (recovered panics leave arbitrary content), the disjointness of sample ranges and the refutation for reused ciphertexts.
- C52 shipped CKKS sets: `CkksBudget.v` states the precision rule (`kcost`, `kokb`: level, slot bound and error bound per register, four constants) and proves that it dominates the bounds of C48 for every parameter set meeting `knumbers` (moduli within eta of the scale, noise bounds, capacities); the drift of unequal scales is bounded by (2^(L-l) - 1) times a constant by induction over the program. `PropsCkksShipped.v` decides the numbers of the three sets by computation and shows that the keys exist. `SlotEncode.v`: orthogonality of the roots (5 has order N/2 modulo 2N, telescoping sums) gives a real polynomial with prescribed slots, rounding its coefficients costs at most N/2 per slot (C25_encoding_exists).

- C53 parameter constructors: `ParamsModel.v` models mkrlwe NewParameters (with the float division and the make of its result), mkckks NewParameters and mkbfv NewParametersFromLiteral over a contract of lattigo's NewRing and rlwe.NewParametersFromLiteral (degree at least 16, distinct primes 1 mod 2N, a root of unity each). `Roots.v` proves that such roots exist (a polynomial of degree d has at most d roots modulo a prime). `PropsParams.v`: acceptance by cases; well-formedness from the literal; for a prime shared by Q and P the ModDown constants are 0, hence row i of every external product is 0.
- C54 concurrent BFV multiplications: `BfvShare.v` makes a MulRelinNew call five steps (lift, lift, decompose, decompose, multiply) on its Evaluator's buffers and the buffers of the key set it names, with schedules over any number of calls and key sets; `PropsBfvShare.v` shows from the buffer simulations of C49 that a call whose key set nobody else touches meanwhile returns `bMulRelinNew` of its operands, and computes what the pools hold when another call lifts in between.
- C55 ciphertexts as values: `HeapEval.v` restates the mkckks Evaluator with ring.Poly objects on a heap and ciphertexts as maps from identities to references (the scratch ciphertext of the Evaluator is on the same heap); `HeapEvalProofs.v`/`HeapWorld.v` simulate each function by the value model, with the invariant that all references of all ciphertexts and of the pool are different; `PropsHeap.v` concludes for every program.
- C56 the same for the mkbfv Evaluator: `HeapBfv.v`, `HeapBfvProofs.v`, `PropsHeapBfv.v`.
- C57 programs that hoist: `CkksHoist.v` (instructions, `xrun`, the same program without hoisting `xerase`), `PropsCkksHoist.v` (equality of the ciphertexts by induction over the program), `PropsCkksHoistEx.v`.
- C58 client bounds: `CkksTight.v` (rule `tcost`: errors of `kcost`, values from the client; `C58_rule` by induction over the program with the register invariant of C48/C52), `PropsCkksTight.v` (worst case, monotonicity, example).
  `CkksCalc.v`: the rule as a function on integers (units of 2^-60), sound by simulation (`C58_calculator`).
- C59 encrypted CNN: `CnnNet.v` (plain network `cnn_out`, packing loops of cnn_test.go, the inference as calls of the modelled cnn.go functions and as a register program `cnn_prog`), `CnnProgProofs.v` (`inference_prog`: same ciphertexts), `CnnSlots.v`, `CnnEval.v` (`cnn_slots`: rotations, masks and packing give the plain network on slots), `CnnSetup.v` (CRS indices, keys, decision loop), `PropsCnnNet.v` (C58 calculator applied to `cnn_prog`), `PropsCnnShipped.v` (the shipped sets, examples).
- C60 division in the NTT domain: `PropsModDown.v` (model of ModDownQPtoQNTT with arbitrary lazy transforms; D times the result is the input minus the transform of the remainder, then cancel D).
- C61 whole CKKS interface on shared storage: `CkksFull.v` (programs with in-place calls, their meaning on slots and the per-register bounds), `PropsCkksFull.v` (each call keeps the description of all registers; then C55_values moves the result to the heap program), `PropsCkksFullEx.v` (a program where all hypotheses hold).
- C62 BFV messages: `BfvMsg.v` (bfv.Encoder by contract, EncryptMsgNew/Decrypt of vectors, heap programs with CopyNew, their meaning on vectors), `BfvMsgSlots.v` (slot positions are a permutation; what EncodeInt/DecodeInt and the automorphisms do to slots, modulo t), `PropsBfvMsg.v` (C47 per call plus slots, then C56_values moves the result to the heap program), `PropsBfvMsgShipped.v` (bit counts of C50), `PropsBfvMsgEx.v` (a run with its eight decrypted integers).
- C63 rule for the whole CKKS interface: `CkksFullRule.v` (specification `grule`: parties, level, size, error and a pending-Rescale mark per ciphertext; then, per call, that the bounds of C61 stay below the rule: `frac_repr` for the float constant, `dback` for the scale after multiplying and dividing by the same modulus in floats, the lemmas of C52 for the rest), `PropsCkksFullRule.v` (`C63_rule` through `C61_end_to_end`, the three shipped sets through the numbers of C52), `PropsCkksFullRuleEx.v` (a program the rule allows, its numbers).

- C64 `ExtShare.v` (memory words, goroutines, the access order of modUpExact and of the division loops, extender objects), `ExtShareProofs.v`, `PropsExtShare.v`: threads with disjoint write sets behave as alone under every schedule (induction on the schedule, frame lemma for one step); one call alone computes C09/C10; histories keep all buffers distinct; the race on one extender is an explicit schedule for arbitrary inputs.
- C65 `KeyCopy.v`, `PropsKeyCopy.v`: refinement of the heap of keys to values, invariant: every polynomial belongs to one component of one key.
- C66 StdDev.v models StandardDeviation and scaleDown in Flocq binary64; a forward error analysis (sum, mean, squares, sum of squares, square root, final product) by induction over the vector gives the bound; the refuted expectations are concrete computations.
- C67 Circuits are lists of pairs of earlier results, their depth is a separate function; by induction over the circuit the precision rule of C52 stays below a numeric sequence (computed in units of 2^-40) that is below 2^(d-16) for d <= 13.
- C68 `ObjShare.v` splits every call into steps that touch one shared polynomial or sampler of an Encryptor, Decryptor or caller's plaintext, with schedules over any number of goroutines and objects; `ObjShareProofs.v`/`PropsObjShare.v` show by induction over the schedule that an undisturbed call equals its run alone, and that run alone equals the sequential models of C14, C16, C17; the harmful interleavings are constructed for arbitrary calls.
- C69 `EvShare.v` writes the calls as resumable processes over the buffers of a KeySwitcher (one ExternalProduct, AddLvl, permutation or Copy per step) with schedules over any number of goroutines and Evaluators; `EvShareProofs.v` shows that a process run alone is the sequential model with buffers (`KsPool.v`), that every step keeps the shape of the buffers, and by induction over the schedule that an undisturbed call runs alone; the harmful interleaving is built by induction over the parties.
- C70 `EvShareAll.v` writes all the calls of a mkckks Evaluator as processes over the KeySwitcher's buffers, the Evaluator's ctxtPool and polyQPool and the key set's HoistPool; `EvShareAllProofs.v`/`EvShareAllSafe.v` show that alone they are the sequential model with buffers (`EvalPool.v`) and that every step keeps the buffers' shapes and the keys; the undisturbed call is C69's induction over the schedule; the two harmful interleavings run one call up to its last write, then the other, then the reads.
- C71 `PropsBfvExt.v`: the digits of DecomposeBFV recombine to X modulo Q*QMul by the CRT (`BfvGadget.v`, `BfvDig.v`), the floors of the gadget and the errors go into E, and an identity modulo every prime of Q and P can be divided by P.
- C72 `PropsSum.v`: induction on the tree of additions; each AddNew keeps coefficients below the modulus, so a polynomial is determined by its class modulo the prime, and a sum in the ring does not depend on the order. Encrypt's last step is an addition to a reduced row. SubNew's rows are computed exactly for the refutation.
- C73 `PropsUses.v`: the calls are compared step by step for two key sets; every lookup in a loop is for an identity of the ciphertext, so the loops agree; a loop that reaches a missing key panics whatever it did before. The rotation chain by induction on the bits of the amount.
- C74 `PropsDeterm.v`, `PropsDetermBfv.v`, `PropsDetermLin.v`, `PropsDetermProg.v`, `PropsDetermBfvProg.v` (`Determ.v`, `DetermOps.v`, `DetermMul.v`, `DetermBfv.v`, `DetermLin.v`): a loop whose iterations commute gives equivalent results for permuted lists (induction on the permutation). Each loop of the evaluator either rewrites the component of its own identity, or also adds to component "0", or adds to an accumulator of digits times keys; the additions commute exactly because the added rows are reduced (a division by P always yields reduced rows, whatever it divides). Whole programs: `PropsDetermProg.v` (mkckks, programs of C48) and `PropsDetermBfvProg.v` (mkbfv, programs of C47), induction on the program, each call by the per-call theorem and the well-formedness of its operands from C48/C47. Decryption: `PropsDetermDec.v` (the value is fixed by C15/C16, and the rows returned are reduced, or untouched when no party has a key). `PropsDetermEnd.v` composes: encryption, program and decryption of any register.
- C75 `PropsPartial.v`: induction on the sequence of `PartialDecrypt` calls (EncDecProofs.v); a ciphertext with a reduced component "0" is fixed by its other components and its decryption, which no contribution changes; the panics by following the keys of the map through the calls.

## 4. What is modelled and what is not

Modelled function by function: mkrlwe/{idset, keys, elements, params, keygen, encryptor, decryptor, basis_extension, keyswitch, keyswitch_hoisted}.go;
mkckks/{elements, params, evaluator, encryptor, decryptor}.go and all of mkckks/utils.go;
mkbfv/{params, evaluator, decryptor, encryptor, basis_extension, keygen, keys, keyswitch, keyswitch_hoisted}.go; cnn/cnn.go and, as the client of C59, packing, setup, TestCNN inference and decision of cnn/cnn_test.go.

Not modelled, or modelled by their contract (the lattigo dependency is not in /repo):

- lattigo `ring`: modular reduction functions (`Word.v`) and row operations (`Rows.v`, `Ntt.v`) are written from the library's documented algorithms.  The NTT is an
  abstract evaluation map (value at odd powers of the root, output reduced for any 64-bit input), not the butterfly network; samplers return arbitrary rows of bounded size.
- lattigo `ring.NewRing` and `rlwe.NewParametersFromLiteral`: by contract (`ParamsModel.v`); the limits on the size and number of moduli are hypotheses.
- lattigo `rlwe`/`ckks`/`bfv` encoders (Encode/Decode, float FFT): only where a message enters or leaves as a plaintext polynomial; slots are treated in C25 and C46. In C62 `bfv.Encoder` (EncodeInt, DecodeInt, ScaleUp, ScaleDown) is modelled by its documented algorithm: positions 5^i, exact transform modulo t, exact roundings.
- amd64 FMA contraction is assumed absent in the float64 expressions.
- Go runtime: memory exhaustion, and data races other than the modelled schedules of C32 (steps atomic at the level of one buffer write) and C54 (steps atomic at the level of one loop of the call) and C64 (steps atomic at the level of one word) and C68 (steps atomic at the level of one operation on a shared polynomial or one sampler call) and C69, C70 (one operation on the buffers of a KeySwitcher, an Evaluator or a RelinearizationKeySet).
- test and benchmark files (except the CNN of cnn_test.go).
- In `BfvMulModel.v` the buffers of mkbfv's KeySwitcher and FastBasisExtender are local; `BfvPool.v` models them as state and C49 shows that the two agree.

## 5. Trusted base

Coq 8.16.1's kernel; the axioms `Print Assumptions` reports, listed for every theorem in `ASSUMPTIONS.md` (generated by `tools/assumptions.py`); the reading of
the Go code by which each definition was written.  The only axioms are those of the standard library reached through Reals and Flocq:
`ClassicalDedekindReals.sig_forall_dec`, `ClassicalDedekindReals.sig_not_dec`, `FunctionalExtensionality.functional_extensionality_dep` and
`Classical_Prop.classic`.  No axiom, parameter, functor, module type or plugin is added; no kernel check is switched off.

## 6. Testing the theorems

`seeded/LOG.jsonl` records every seeded bug: the definition edited, the edit, the claim it breaks, which theorem files stopped compiling, and which theorems were
tightened when nothing failed.  `seeded/mut.py` applies a batch to a scratch copy and rebuilds what depends on the edited file.
