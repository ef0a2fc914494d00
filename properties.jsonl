{"id": "C01", "title": "IDSet is a finite set under every history", "statement": "After any sequence of NewIDSet/Add/Remove/CopyNew/Union/Intersection on any number of IDSet objects, Has answers exactly as a mathematical finite set would, Size is its cardinality, and the objects returned by CopyNew/Union/Intersection are independent of their arguments (later mutations of one are never visible in the other). The reserved name \"0\" can never enter a set: Add(\"0\") panics.", "quantifier": "every finite sequence of IDSet calls on every number of sets and every string, every map iteration order", "why_tests_cant": "a test runs one history; aliasing and cardinality errors show only for particular interleavings of mutations on shared objects", "anchors": ["mkrlwe/idset.go: IDSet.Has, Add, Remove, Size, NewIDSet, CopyNew, Intersection, Union"]}
{"id": "C02", "title": "Key sets are maps: the last key added for an id is the key returned", "statement": "For SecretKeySet, PublicKeySet, ConjugationKeySet, RelinearizationKeySet (mkrlwe and mkbfv) and RotationKeySet, after any history of Add/Del, Get(id) (Get(id, rotidx) for rotations) returns the key of the most recent Add with that id that was not followed by a Del of it, and panics when there is none; keys of other ids or other rotation indices are never affected.", "quantifier": "every sequence of Add/Del/Get calls, every id and rotation index", "why_tests_cant": "the history space is unbounded, and a test with one key per id cannot see cross-talk between ids or indices", "anchors": ["mkrlwe/keys.go: Add*/Del*/Get*", "mkbfv/keys.go: AddRelinearizationKey, DelRelinearizationKey, GetRelinearizationKey"]}
{"id": "C03", "title": "Ciphertext containers: identities, levels, deep copies, padding", "statement": "NewCiphertext(params, ids, level) has exactly the components \"0\" and ids, all zero, at that level, and NewCiphertextNTT the same with every component marked as NTT; IDSet() returns exactly the non-\"0\" components; CopyNew returns an equal ciphertext of new objects; Copy overwrites, in the components of the destination that the source has, the rows both have and the domain mark, changes no other object, and panics when the source has a component the destination lacks; PadCiphertext adds exactly the missing identities with zero polynomials, keeps every existing component, and leaves the decryption under every set of secret keys unchanged.", "quantifier": "every ciphertext, identity set and level", "why_tests_cant": "holds for all identity sets, including overlapping and empty ones; a test fixes a few", "anchors": ["mkrlwe/elements.go: NewCiphertext, NewCiphertextNTT, IDSet, Level, CopyNew, Copy, PadCiphertext"]}
{"id": "C04", "title": "The default CRS covers every default rotation key and every rotation amount", "statement": "NewParameters creates a CRS for exactly the indices 0,-1,-2,-3,-4 and the powers of two below N/2. Consequently GenDefaultRotationKeys never panics and produces a key for exactly those powers of two, and every rotation amount in 1..N/2-1 is a sum of distinct indices for which a default key exists.", "quantifier": "every ring degree N = 2^logN and every rotation amount", "why_tests_cant": "a test samples a few rotation amounts at a few degrees", "anchors": ["mkrlwe/params.go: NewParameters", "mkrlwe/keygen.go: GenDefaultRotationKeys, GenRotationKey"]}
{"id": "C05", "title": "Digit counts computed in floating point are the exact ceilings", "statement": "Parameters.Beta(level), computed as int(math.Ceil(float64(level+1)/float64(alpha))), equals the exact integer ceiling for every level and alpha that can occur, and the beta digit blocks [i*alpha, (i+1)*alpha) cut at level partition the moduli 0..level: each modulus is in exactly one block.", "quantifier": "every level and every alpha >= 1 below 2^32", "why_tests_cant": "floating point ceilings fail at isolated inputs, which sampling misses", "anchors": ["mkrlwe/params.go: Alpha, Beta", "mkrlwe/basis_extension.go: DecomposeAndSplit"]}
{"id": "C06", "title": "Montgomery/Barrett word arithmetic is exact", "statement": "The uint64 routines the basis conversion relies on (MRed, MForm, CRed, ModExp and the multiply-accumulate in multSum) return the mathematically correct residue with no wrap-around, for every modulus below 2^61 and every in-range operand.", "quantifier": "every odd modulus q < 2^61 and all operands in the documented ranges", "why_tests_cant": "2^128 operand pairs per modulus; overflow occurs only at extreme operands", "anchors": ["mkrlwe/basis_extension.go: multSum, basisextenderparameters, genModDownParams"]}
{"id": "C07", "title": "Basis-extension constants are what they claim to be", "statement": "The tables built by NewFastBasisExtender and NewDecomposer satisfy their specification for every list of distinct primes: qoverqiinvqi[i] is the Montgomery form of (Q/q_i)^-1 mod q_i, qoverqimodp[j][i] of Q/q_i mod p_j, vtimesqmodp[j][v] = -v*Q mod p_j, and the mod-down constant is the Montgomery form of P^-1 mod q_i.", "quantifier": "every list of pairwise distinct odd primes below 2^61", "why_tests_cant": "tests exercise one or two moduli chains; the constants are built by nested loops over the chain", "anchors": ["mkrlwe/basis_extension.go: basisextenderparameters, genModDownParams, NewFastBasisExtender, NewDecomposer"]}
{"id": "C08", "title": "ModUp returns residues of one integer congruent to the input", "statement": "ModUpQtoP/ModUpPtoQ on the residues of x modulo q_0..q_k returns, for every target modulus p_j, the residue of one and the same integer X with X congruent to x mod Q and -2^-40*Q < X < (1+2^-40)*Q; every intermediate uint64 stays in range and no table lookup is out of bounds. (The name says exact; the float64 correction makes exactness false for x close to 0 or Q: see the refutation.)", "quantifier": "every residue vector, every chain of at most 32 distinct primes below 2^61", "why_tests_cant": "the float64 correction term is wrong only on a 2^-40 fraction of the inputs, which random tests never hit", "anchors": ["mkrlwe/basis_extension.go: modUpExact, reconstructRNS, multSum, ModUpQtoP, ModUpPtoQ"]}
{"id": "C09", "title": "ModDownQPtoQ divides by P with error below one unit", "statement": "ModDownQPtoQ on the residues of x returns, for every q_i, the residue of one integer Y with P*Y = x - r for a single r congruent to x mod P with -2^-40 P < r < (1+2^-40) P: the floor division up to the same 2^-40 exception. (The comment claims rounding; the result is the floor: see the refutation.)", "quantifier": "every x, every chain", "why_tests_cant": "the division error depends on the residue class of x mod P; tests see a few", "anchors": ["mkrlwe/basis_extension.go: ModDownQPtoQ, ModDownQPtoQNTT, genModDownParams"]}
{"id": "C10", "title": "ModDownQPtoP divides by Q", "statement": "ModDownQPtoP(level, level, ...) returns the residues modulo P_level of the floored division of x by Q_level, up to the 2^-40 exception of the base conversion, for every level that exists in both chains. (Its signature offers any pair (levelQ, levelP); for unequal levels the result is false or the call panics, because the constant table is indexed by levelP: see the refutation.)", "quantifier": "every level, every x, every pair of chains; the refutation: a pair of unequal levels", "why_tests_cant": "the only caller uses levelQ = levelP; the function is wrong for every other pair (it indexes its constant table by levelP)", "anchors": ["mkrlwe/basis_extension.go: ModDownQPtoP"]}
{"id": "C11", "title": "Gadget decomposition reconstructs the input at every level", "statement": "For every level and every alpha, including a last block cut short by the level, digit i of Decompose is the residue vector over all of Q_level and P of one integer polynomial that is congruent to the input modulo every modulus of block i and smaller than (1+2^-40) times the product of the block's moduli; there are exactly Beta(level) digits. This holds when gamma divides the number of special primes or the blocks are single moduli. (A user would expect every accepted number of special primes to work; with any other number, e.g. five special primes and gamma 2, decomposing a block of two or more moduli panics: see the refutation.)", "quantifier": "every polynomial, level, alpha >= 1, moduli chain", "why_tests_cant": "tests check two levels of a few chains with one random polynomial", "anchors": ["mkrlwe/basis_extension.go: DecomposeAndSplit", "mkrlwe/keyswitch.go: DecomposeSingleNTT, Decompose"]}
{"id": "C12", "title": "External product multiplies up to a bounded error", "statement": "If bg is a switching key of b (an encryption-free gadget vector P*g_i*b + e_i as produced by GenSwitchingKey) then ExternalProduct(a, bg) is congruent to a*b + E modulo Q_level, where the infinity norm of E is bounded by the explicit noise formula in the digit bound, the number of digits, N, the error bound and P; the result is the same when a is given in NTT form.", "quantifier": "every a, b, error vector within the sampler bound, level, parameter set", "why_tests_cant": "the tests measure one random instance against an empirical bound", "anchors": ["mkrlwe/keyswitch.go: ExternalProduct, Decompose", "mkrlwe/keygen.go: GenSwitchingKey"]}
{"id": "C13", "title": "Key generation equations hold for all keys", "statement": "GenPublicKey returns (e - s*a, a); GenRelinearizationKey returns vectors b = -s*a + e0, d = -r*a + s*g + e1, v = -s*u - r*g + e2 modulo QP in Montgomery form; GenRotationKey returns -sigma^-1(s)*a + s*g + e; GenConjugationKey returns -s*a + conj(s)*g + e; g_i being P on the moduli of block i and 0 on every other modulus including the P moduli. The e are the sampled errors.", "quantifier": "every secret key, CRS, sampled error, parameter set with any number of moduli per digit", "why_tests_cant": "tests check one sample by the size of a sum of coefficients, which cannot see a wrong sign on part of the coefficients or a wrong block", "anchors": ["mkrlwe/keygen.go: GenPublicKey, GenRelinearizationKey, GenSwitchingKey, GenRotationKey, GenConjugationKey, GenGaussianError"]}
{"id": "C14", "title": "Decrypting a fresh encryption returns the plaintext plus a bounded error", "statement": "For every party id other than \"0\", key pair and plaintext, decrypting Encrypt(pt, pk) with that party's key gives pt + e0 + u*e + e1*s modulo Q_level, where level is the minimum of the plaintext and ciphertext levels; the error is bounded by B(1 + 2N) for ternary u and s; this holds for all four combinations of NTT flags of plaintext and ciphertext.", "quantifier": "every plaintext, randomness within the sampler bounds, level pair, NTT flag combination", "why_tests_cant": "tests sample randomness, and only two of the four flag combinations", "anchors": ["mkrlwe/encryptor.go: Encrypt", "mkrlwe/decryptor.go: Decrypt, PartialDecrypt", "mkckks/encryptor.go: EncryptMsgNew", "mkbfv/encryptor.go: EncryptMsgNew"]}
{"id": "C15", "title": "Decryption is independent of the order of the parties and of irrelevant keys", "statement": "Decrypt on a ciphertext with identities I and a key set K computes c_0 + sum over i in I of c_i*s_i, for every iteration order of the key map, ignores keys of parties outside I, leaves its ciphertext argument unchanged, and panics exactly when some identity of I has no key in K. Partial decryptions by different parties commute.", "quantifier": "every ciphertext, key set and map iteration order", "why_tests_cant": "Go randomises map order; with n parties there are n! orders", "anchors": ["mkrlwe/decryptor.go: PartialDecrypt, Decrypt", "mkrlwe/elements.go: CopyNew"]}
{"id": "C16", "title": "The multi-key BFV decryptor reports a missing key", "statement": "mkbfv Decrypt with a key set containing the keys of all parties of the ciphertext hands the decoder the decryption c_0 + sum c_id*s_id modulo every Q_j, for every iteration order; with any key set it returns, without an error, c_0 plus the contributions of exactly the parties whose key is present. (A user would expect a missing key to be reported, as mkrlwe Decrypt does; it is not: see the refutation, where one missing key gives a polynomial that is not the decryption.)", "quantifier": "every ciphertext and key set", "why_tests_cant": "no test decrypts with a missing key; the failure is a silent wrong message", "anchors": ["mkbfv/decryptor.go: Decrypt"]}
{"id": "C17", "title": "Decryptor results do not depend on what was decrypted before", "statement": "After every history of Decrypt calls on one mkckks Decryptor (any ciphertexts, levels and key sets, including calls that panicked on a missing key and were recovered) Decrypt hands to the decoder exactly the rows 0..l' that a fresh Decryptor would give for the same ciphertext and keys, l' being the lowest level among the ciphertext and all earlier ones: the plaintext is the fresh one if no earlier ciphertext had a lower level, and the decoded message is still the fresh one if it is smaller than half the product of the moduli up to l'. (The expectation that the message never depends on earlier calls is false: one level-0 call, even a failing one, truncates the buffer for ever.)", "quantifier": "every history of Decrypt calls on one Decryptor", "why_tests_cant": "only a history mixing levels shows it: each Decrypt truncates the shared plaintext buffer for ever", "anchors": ["mkrlwe/decryptor.go: Decrypt", "mkckks/decryptor.go: Decrypt"]}
{"id": "C18", "title": "Homomorphic addition and subtraction are exact for all identity sets", "statement": "For ciphertexts with equal scale, mkckks AddNew/SubNew (any levels) return a ciphertext over exactly the union of the identity sets, of the common scale and the smaller level, whose decryption is exactly the sum/difference of the decryptions modulo Q at that level; disjoint, overlapping and equal identity sets and aliased operands included. Observed through Decrypt: every decrypted coefficient is the sum/difference of the decrypted coefficients of the operands.", "quantifier": "every pair of ciphertexts, identity sets, levels", "why_tests_cant": "the identity-set cases (only left, only right, both, none) multiply with levels; a sign error on the only-right case needs disjoint parties", "anchors": ["mkckks/evaluator.go: evaluateInPlace, AddNew, SubNew", "mkbfv/evaluator.go: evaluateInPlace, AddNew, SubNew"]}
{"id": "C19", "title": "Adding ciphertexts of different scales aligns the scales", "statement": "mkckks AddNew/SubNew with positive finite scales whose ratio is below 2^52 (or between 2^53 and 2^62) multiplies the operand of smaller scale by K = max(1, floor(ratio as a float64)), leaves the other alone and returns the larger scale: the decryption is K*m_small +- m_large. K is within 1 of the exact ratio, and K times the smaller scale is the larger one exactly if the larger scale is an integer multiple. (The expectation that every ratio is aligned this way is refuted: an odd ratio in [2^52, 2^53) is multiplied in plus one, and from 2^63 on the factor is also multiplied by the last modulus.)", "quantifier": "every pair of scales and ciphertexts", "why_tests_cant": "tests only add at equal scale", "anchors": ["mkckks/evaluator.go: evaluateInPlace, MultByConst, newCiphertextBinary"]}
{"id": "C20", "title": "Multiplication with relinearisation is correct up to a bounded error", "statement": "For ciphertexts op0, op1 over identity sets I0, I1 and relinearisation keys of all parties in I0 u I1 generated under one CRS, MulAndRelin returns a ciphertext over I0 u I1 whose decryption is dec(op0)*dec(op1) + E modulo Q_level, with an explicit bound on E in N, the digit bound, Beta, the party counts, the error bound and P.", "quantifier": "every number of parties, ciphertexts, keys, errors within bounds, level", "why_tests_cant": "tests fix 2 or 4 parties and measure one random instance", "anchors": ["mkrlwe/keyswitch.go: MulAndRelin", "mkckks/evaluator.go: MulRelinNew, mulRelin"]}
{"id": "C21", "title": "Hoisted evaluation returns the same ciphertext as the plain one", "statement": "MulAndRelinHoisted with hoisted forms obtained from Decompose at the level of the output (for both, one or none of the operands) and RotateHoisted return exactly the same polynomials as MulAndRelin and Rotate.", "quantifier": "every ciphertext, key set, choice of hoisted operands", "why_tests_cant": "tests compare decryptions approximately on one instance", "anchors": ["mkrlwe/keyswitch_hoisted.go: ExternalProductHoisted, MulAndRelinHoisted, RotateHoisted", "mkckks/evaluator.go: HoistedForm, MulRelinHoistedNew, RotateHoistedNew"]}
{"id": "C22", "title": "Rotation applies the Galois automorphism to the plaintext", "statement": "Rotate(ct, k) with rotation keys of all parties of ct decrypts to sigma_{5^k}(dec(ct)) + E modulo Q_level with bounded E, for every number of parties and level.", "quantifier": "every ciphertext, rotation index with CRS and keys, level, number of parties", "why_tests_cant": "a test samples a rotation amount and parties", "anchors": ["mkrlwe/keyswitch.go: Rotate", "mkrlwe/keygen.go: GenRotationKey"]}
{"id": "C23", "title": "Any rotation amount works with the default keys", "statement": "mkckks RotateNew(ct, k) for every integer k (negative, or beyond N/2) is a rotation by r = k mod N/2: r = 0 copies, an r with a CRS entry uses one key, and every other r is composed from the power-of-two rotations of its binary expansion, whose automorphisms compose to sigma_{5^r}; the noise is at most (number of rotations) times that of one key switch. With the default CRS and default keys every k works, and slot j of the result is slot j+k mod N/2 of the plaintext. If a party lacks one of the keys used, RotateNew panics. RotateHoistedNew returns the same ciphertext when r is 0 or has a CRS entry and panics otherwise.", "quantifier": "every integer rotation amount and ring degree", "why_tests_cant": "tests sample one amount per run", "anchors": ["mkckks/evaluator.go: rotate, RotateNew, rotateHoisted, RotateHoistedNew"]}
{"id": "C24", "title": "Conjugation applies X -> X^-1 to the plaintext", "statement": "Conjugate(ct) of a ciphertext at the maximum level, with conjugation keys of all parties, decrypts to conj(dec(ct)) + E with bounded E. (A user would expect the same at every level; below the maximum level every call panics: see the refutation.)", "quantifier": "every ciphertext at the maximum level, number of parties; the refutation: every ciphertext below it", "why_tests_cant": "tests use one top-level instance; below the top level the code indexes past the polynomial (see the refutation)", "anchors": ["mkrlwe/keyswitch.go: Conjugate", "mkrlwe/keygen.go: GenConjugationKey", "mkckks/evaluator.go: ConjugateNew"]}
{"id": "C25", "title": "Slots rotate left", "statement": "Applying sigma_{5^k} to a plaintext polynomial moves the value in slot j+k (mod N/2) to slot j in both rows, and X -> X^-1 exchanges the rows; amounts equal mod N/2 have the same effect. For CKKS, no coefficient of the polynomial is larger than the largest absolute value of its N/2 slots, and the slots determine the polynomial; and for every message of N/2 complex numbers and every scale there is an integer polynomial whose slots divided by the scale are within N/(2 scale) of the message.", "quantifier": "every polynomial, slot and amount over every coefficient ring with a primitive 2N-th root of unity", "why_tests_cant": "all polynomials and all amounts", "anchors": ["mkrlwe/keyswitch.go: Rotate, Conjugate", "mkckks/evaluator.go: RotateNew, ConjugateNew", "mkbfv/evaluator.go: RotateNew, ConjugateNew"]}
{"id": "C26", "title": "Rescale divides by the dropped moduli and only by them", "statement": "Rescale(ct, minScale, ct) divides the scale by the last moduli as long as the quotient stays at least minScale/2, lowers the level by the number nb of divisions (unique when it exists), keeps the identities, and replaces the decryption m by m' with D m' = m + E, D the product of the dropped moduli, 2|E| <= (D-1)(1 + n N T) for n parties with secrets bounded by T; it reports an error and changes nothing for minScale <= 0, scale 0 or level 0. If the scale stays at least minScale/2 after dividing by all moduli, Rescale panics instead of stopping at level 0.", "quantifier": "every ciphertext, scale, minScale, level", "why_tests_cant": "the loop bound interacts with the level only at extreme scales (out-of-range modulus index: see refutation)", "anchors": ["mkckks/evaluator.go: Rescale, RescaleNew"]}
{"id": "C27", "title": "RescaleNew returns a ciphertext of the same message", "statement": "If at least one division is needed, RescaleNew(ct, threshold) returns a new ciphertext over the same identities that decrypts to the rounded quotient of the message, like Rescale. (The expectation that it returns the same message when no rescaling is needed is refuted: it then returns the all-zero ciphertext with the scale of ct and no error.)", "quantifier": "every ciphertext and threshold", "why_tests_cant": "tests always need at least one rescaling; without one the function returns an encryption of zero", "anchors": ["mkckks/evaluator.go: Rescale, RescaleNew"]}
{"id": "C28", "title": "Dropping levels keeps the plaintext", "statement": "DropLevel(ct, k) and DropLevelNew, k <= level, keep the identities and scale, lower the level by k and reduce the decryption modulo the smaller product of moduli; DropLevelNew leaves its argument unchanged and shares no polynomial with it. For k > level+1 they panic.", "quantifier": "every ciphertext and number of levels", "why_tests_cant": "all levels and key sets", "anchors": ["mkckks/evaluator.go: DropLevel, DropLevelNew"]}
{"id": "C29", "title": "Multiplication by a constant", "statement": "MultByConst(ct, c, out) with an integral constant |c| < 2^52 of any supported numeric type multiplies the decryption by c and keeps the scale; with a non-integral real constant it multiplies the decryption by an integer K within 1 of the float64 product of c with the last modulus, and the scale by that modulus. With a complex constant a + b i, b <> 0, it multiplies the first half of the coefficients of every polynomial of the ciphertext by a + b r and the second half by a - b r modulo each Q_j, r = psi_j^(N/2) a square root of -1, with a and b scaled by the last modulus if either has a fraction. (Refuted: a constant of an unsupported type is silently taken as 0, and a complex constant never multiplies by a + b X^(N/2), because NTT-domain factors are applied to coefficient-domain ciphertexts.)", "quantifier": "every ciphertext and constant of the supported types", "why_tests_cant": "complex constants are never tested; the code applies NTT-domain factors to coefficient-domain ciphertexts (see refutation)", "anchors": ["mkckks/evaluator.go: MultByConst, getConstAndScale", "mkckks/utils.go: scaleUpExact"]}
{"id": "C30", "title": "Plaintext multiplication", "statement": "MulPtxtNew(ct, pt) returns a ciphertext over the same identities that decrypts to the rounded quotient of dec(ct)*pt by the moduli dropped by its rescaling (see Rescale), or to dec(ct)*pt itself at level 0, with the scale the product of the scales divided by those moduli.", "quantifier": "every ciphertext and plaintext", "why_tests_cant": "all operands", "anchors": ["mkckks/evaluator.go: MulPtxtNew"]}
{"id": "C31", "title": "Evaluators have no memory", "statement": "The scratch buffers of Evaluator, KeySwitcher and RelinearizationKeySet never influence a result: after every history of calls (also panicked and recovered ones) on the same objects, AddNew, SubNew, MulPtxtNew, MulRelinNew, MulRelinHoistedNew, RotateNew, RotateHoistedNew and ConjugateNew have the outcome (ciphertext or panic) they have on newly created objects holding the same keys.", "quantifier": "every previous content of the buffers (hence every history)", "why_tests_cant": "stale data is only visible after particular histories of other operations", "anchors": ["mkrlwe/keyswitch.go: swkPool1..3, polyQPool", "mkckks/evaluator.go: ctxtPool, polyQPool, MulRelinNew", "mkrlwe/keys.go: HoistPool"]}
{"id": "C32", "title": "Two evaluators can share a relinearisation key set", "statement": "Concurrent MulRelinNew calls on different Evaluators with the same RelinearizationKeySet return the products of their own operands for every interleaving if no party takes part in two of the calls, and also for overlapping parties if the calls do not overlap in time. (For calls that share a party and overlap in time this is false: the key set carries the decomposition buffers, and a call can return the product of the other call's operands.)", "quantifier": "every interleaving of the two calls", "why_tests_cant": "needs a particular schedule: the key set carries the decomposition buffers", "anchors": ["mkckks/evaluator.go: MulRelinNew", "mkrlwe/keys.go: RelinearizationKeySet.HoistPool"]}
{"id": "C33", "title": "Homomorphic window sums in the CNN layers", "statement": "The rotate-and-add programs of Convolution, FC1Layer and FC2Layer compute the cyclic window sums they stand for, up to an explicit error: if the inputs are well-formed encryptions whose parties hold relinearisation keys and the needed rotation keys, the hoisted rotation amounts are in the CRS and the bias scale is equal or close to the product scale, the call succeeds and the result decrypts to (S + e)/D, D the product of the moduli dropped by rescaling, e bounded by an explicit noise formula, where slot z of S is, with slots counted cyclically: for FC1Layer sum_{k<128} sum_i vec[z+k+128i]*mat_i[z+k] + D*bias[z]; for FC2Layer sum_{i<64} (sum_{k<16} mask*vec[z+128i-k])*mat[z+128i] + D*bias[z]; for Convolution the 4-term kernel sum with offsets 0, 1, 14, 15 folded over strides 2048 and 1024. FC1Layer without any matrix panics.", "quantifier": "every vector, matrix and slot index, every slot count", "why_tests_cant": "tests run one image", "anchors": ["cnn/cnn.go: Convolution, FC1Layer, FC2Layer"]}
{"id": "C34", "title": "Bit-reversal permutation", "statement": "SliceBitReverseInPlace* on a slice and N a power of two terminates, moves the element at index i to the index with the bits of i reversed, leaves elements beyond N alone, and applying it twice is the identity.", "quantifier": "every slice and every N = 2^k", "why_tests_cant": "all sizes and contents; for N not a power of two the loop may not terminate (see refutation)", "anchors": ["mkckks/utils.go: SliceBitReverseInPlaceFloat64, SliceBitReverseInPlaceComplex128, SliceBitReverseInPlaceRingComplex"]}
{"id": "C35", "title": "Rotation-key generation for every index", "statement": "GenRotationKey(k) returns a key carrying the index k normalised to 0..N/2-1 when negative, which is the index Rotate(k) looks up, exactly when the CRS of k and of the normalised index both exist, and panics otherwise. For k >= 0 the CRS of k is enough. (The expectation that AddCRS(k) always suffices is false for negative k, in particular for the reserved indices -1..-4: see the refutation.)", "quantifier": "every integer k and CRS index set", "why_tests_cant": "negative indices collide with the reserved CRS indices and are looked up before normalisation (see refutations)", "anchors": ["mkrlwe/keygen.go: GenRotationKey", "mkrlwe/params.go: AddCRS"]}
{"id": "C36", "title": "Published keys determine the secret key", "statement": "The public key and the relinearisation key of a party mask their first component with the same CRS polynomial; from the two keys alone the error of the public key and then the secret key can be computed, for all sampler outputs, whenever some CRS row has no zero entry. The relinearisation key and a rotation key for index 0 reveal the secret in the same way, unconditionally. (The expectation that published evaluation keys do not determine the secret is refuted by these two explicit computations.)", "quantifier": "every key set a user can generate through the API, all secrets and errors of bounded norm", "why_tests_cant": "a leak is not visible in any functional test", "anchors": ["mkrlwe/keygen.go: GenPublicKey, GenRotationKey, GenRelinearizationKey", "mkrlwe/params.go: NewParameters"]}
{"id": "C37", "title": "Key pairs are generated together; sparse key pairs never are", "statement": "GenKeyPair(id) returns a secret key and the matching public key. GenKeyPairSparse(hw) never returns a key pair: it panics for every hw (the expectation that it returns one is refuted).", "quantifier": "every hw", "why_tests_cant": "it is never called by a test: the function dereferences its nil result on every call", "anchors": ["mkrlwe/keygen.go: GenKeyPairSparse"]}
{"id": "C38", "title": "Constant scaling and reduction helpers", "statement": "scaleUpExact(value,n,q) returns a word congruent mod q, with the sign of value, to the integer X obtained by adding 1/2 to the float64 product |value|*n and truncating: X is always within 1 of the product, and is the nearest integer (halves up) when the product is below 2^52 and is not the float just below 1/2 (nearest is false there and for odd integers from 2^52 on); scaleUpVecExact agrees with it on every coefficient unless the product is exactly 2^64, and zeroes the positions beyond the values; scaleUpVecExactBigFloat is congruent to the rounded product but leaves negative values in [q,2q); interfaceMod returns the canonical residue for uint64 and big values, but returns positive int64 values unreduced and q for negative multiples of q (canonical is false); genBigIntChain returns the prefix products and panics on the empty chain; GenSwitchkeysRescalingParams returns the Montgomery form of P^-1 mod q_i.", "quantifier": "every value and modulus", "why_tests_cant": "boundary values: negative multiples of q, positive int64 above q (see refutation)", "anchors": ["mkckks/utils.go: scaleUpExact, interfaceMod, genBigIntChain, GenSwitchkeysRescalingParams, scaleUpVecExactBigFloat"]}
{"id": "C39", "title": "BFV base extension, rescaling and quantisation", "statement": "ModUpQtoR returns the residues modulo R = Q*QMul of one lift of the input polynomial with coefficients in [0,Q); Rescale returns the residues modulo R of floor(X*QMul/Q) for one lift X of the input; Quantize, given in NTT form the residues of any integer polynomial X modulo R, returns the reduced residues modulo Q of floor(t*X/QMul); each up to the 2^-40 exception of the base conversion. Chains of different lengths and polynomials with missing rows panic.", "quantifier": "every polynomial and pair of moduli chains of equal length", "why_tests_cant": "tests only see decrypted products", "anchors": ["mkbfv/basis_extension.go: ModUpQtoR, Rescale, Quantize"]}
{"id": "C40", "title": "BFV multiplication is correct up to a bounded error", "statement": "With relinearisation keys generated for all parties, MulRelinNew on two full-level BFV ciphertexts returns, for every number of parties, a ciphertext over the union of the identities whose decryption Mx satisfies Q*Mx = t*phi0*phi1 + E, phi0 and phi1 being integer polynomials congruent to the operands' decryptions and E of an explicit size; hence if the operands encode m0 and m1 (t*phi = Q*m + small), the result encodes m0*m1 with an explicit noise, and if that noise is below Q/2 then Decrypt followed by rounding t/Q gives m0*m1 modulo t. The hoisted and the unhoisted multiplication write the same ciphertext. A missing relinearisation key is a panic. (Key generation accepts only modulus chains whose length is a multiple of alpha: for every other chain it always panics.)", "quantifier": "every number of parties, ciphertexts, keys", "why_tests_cant": "tests fix parties and random messages", "anchors": ["mkbfv/evaluator.go: MulRelinNew, mulRelinHoisted, mulRelin", "mkbfv/keyswitch.go: MulAndRelinBFV, ExternalProductBFV, DecomposeBFV", "mkbfv/keyswitch_hoisted.go", "mkbfv/keygen.go: GenRelinearizationKey, GenBFVSwitchingKey"]}
{"id": "C41", "title": "The output domain of mkrlwe Decrypt matches the plaintext flag", "statement": "After Decrypt(ct, sks, pt) with equal NTT flags of ct and pt, pt holds the decryption in the domain announced by pt.Value.IsNTT. (For unequal flags a user would expect the same, but it is false of the code, which neither converts the coefficients nor sets the flag: see the refutation.)", "quantifier": "every combination of NTT flags of ciphertext and plaintext, ciphertext, key set, iteration order", "why_tests_cant": "tests always set the two flags equal", "anchors": ["mkrlwe/decryptor.go: Decrypt"]}
{"id": "C42", "title": "The reserved identity cannot be used to encrypt", "statement": "EncryptMsgNew with a public key whose id is \"0\" panics instead of producing an undecryptable ciphertext, for every message; with any other id it returns a ciphertext over exactly {\"0\", id} that decrypts to the message. (The expectation that the lower-level Encrypt also checks the reserved id is refuted: it returns a ciphertext.)", "quantifier": "every message and key", "why_tests_cant": "not tested", "anchors": ["mkckks/encryptor.go: EncryptMsgNew", "mkbfv/encryptor.go: EncryptMsgNew", "mkrlwe/idset.go: Add"]}
{"id": "C43", "title": "Re-creating a CRS invalidates keys", "statement": "AddCRS calls on other indices change no generated key and no rotation, product or conjugation. Re-creating the CRS of an index whose keys exist makes a later rotation with those keys decrypt as if the party's secret had been shifted by the difference of the two CRS entries, without any error. (The expectation that AddCRS on an index with existing keys leaves rotations correct is refuted by a concrete history.)", "quantifier": "every history of AddCRS, GenRotationKey and Rotate", "why_tests_cant": "needs the history AddCRS after key generation; Parameters are copied by value but share the CRS map", "anchors": ["mkrlwe/params.go: AddCRS, Parameters"]}
{"id": "C44", "title": "CKKS multiplication with relinearisation", "statement": "mkckks MulRelinNew and MulRelinHoistedNew on ciphertexts of levels >= 1 whose parties all have relinearisation keys return a ciphertext over exactly the union of the identities that decrypts to the rounded quotient of m0*m1 + E by the moduli dropped by the final rescaling, E bounded by the relinearisation noise, for distinct operands and for squaring; the scale is the product of the scales divided by those moduli. A party of the first operand without a relinearisation key makes MulRelinNew panic.", "quantifier": "every pair of ciphertexts, identity sets, levels, scales, keys", "why_tests_cant": "noise grows with the number of parties and levels; a test fixes both", "anchors": ["mkckks/evaluator.go: MulRelinNew, MulRelinHoistedNew, mulRelinHoisted, HoistedForm, Rescale"]}
{"id": "C45", "title": "BFV addition and subtraction are exact for all identity sets", "statement": "mkbfv AddNew/SubNew return a ciphertext over exactly the union of the identity sets whose decryption is the sum/difference of the decryptions modulo every Q_j; disjoint, overlapping and equal identity sets included, for every map iteration order. Observed through Decrypt as well.", "quantifier": "every pair of well-formed ciphertexts, key sets and iteration orders", "why_tests_cant": "tests use a handful of identity sets and random messages", "anchors": ["mkbfv/evaluator.go: AddNew, SubNew, evaluateInPlace, newCiphertextBinary"]}
{"id": "C46", "title": "BFV rotation and conjugation of any amount", "statement": "mkbfv RotateNew by any integer k, with rotation keys of all parties for the amounts it uses (k mod N/2 if the CRS has an entry for it, else the powers of two of its binary expansion), returns a ciphertext over the same identities whose decryption is the Galois image X -> X^(5^(k mod N/2)) of the decryption up to a bounded error; on the slots modulo t this is the cyclic shift by k of both rows. ConjugateNew gives the image under X -> X^-1 up to a bounded error. A missing key of any party makes both panic.", "quantifier": "every amount, ciphertext, number of parties and iteration order", "why_tests_cant": "tests rotate by a few amounts with all keys present", "anchors": ["mkbfv/evaluator.go: RotateNew, rotate, ConjugateNew, conjugate"]}
{"id": "C47", "title": "BFV programs of any length compute what they stand for", "statement": "When all parties make their keys with the key generator, messages are encrypted with EncryptMsgNew under the individual public keys, and a server runs any straight-line program of AddNew, SubNew, MulRelinNew, RotateNew and ConjugateNew on the ciphertexts (operands may be any earlier results, with any mix of parties), then no call panics and every intermediate ciphertext carries exactly the parties it depends on. Decrypt with all secret keys followed by rounding by t/Q gives, for every register whose accumulated noise bound is below Q/2, the result of the same program on the plaintext polynomials modulo t. The noise bound is an explicit function of the program, the numbers of parties and the sizes of secrets and errors.", "quantifier": "every program length and shape, number of parties, keys, randomness and map iteration order", "why_tests_cant": "tests run one operation per ciphertext, for a few parties and sampled messages", "anchors": ["mkbfv/evaluator.go: AddNew, SubNew, MulRelinNew, RotateNew, ConjugateNew", "mkbfv/encryptor.go: EncryptMsgNew", "mkbfv/decryptor.go: Decrypt", "mkbfv/keygen.go", "mkrlwe/keygen.go"]}
{"id": "C48", "title": "CKKS programs of any length compute on the slots what they stand for", "statement": "When all parties make their keys with the key generator, encoded vectors of N/2 complex slots are encrypted with EncryptMsgNew under the individual public keys, and a server runs any straight-line program of AddNew, SubNew, MulRelinNew, RotateNew, ConjugateNew, MulPtxtNew and DropLevelNew on the ciphertexts (operands may be any earlier results, with any mix of parties, levels and scales the operations accept), then no call panics and every intermediate ciphertext carries exactly the parties it depends on, the level the number of divisions leaves and the scale the float arithmetic gives. Decrypt with all secret keys gives, for every register that fits into its modulus (its tracked coefficient bound, or its scale times the bound of its slots and their error, is below half the modulus of its level), a polynomial whose slots divided by the stored scale are within an explicit error of the same program evaluated on the slot vectors (sums, differences and products slot by slot, rotation of the slots, complex conjugation). The error bound accounts for encryption noise, key switching noise, rounding of the rescalings, misalignment of unequal scales and the float drift of the stored scale, which stays within (1 + 2^-50)^(d+1) of the exact one after a product with d divisions; for operands of equal scale addition just adds the errors.", "quantifier": "every program length and shape, number of parties, slot vectors, scales, keys, randomness and map iteration order", "why_tests_cant": "tests run one operation per ciphertext and compare floating-point slots statistically", "anchors": ["mkckks/evaluator.go: AddNew, SubNew, MulRelinNew, RotateNew, ConjugateNew, MulPtxtNew, DropLevelNew, Rescale", "mkckks/encryptor.go: EncryptMsgNew", "mkckks/decryptor.go: Decrypt", "mkrlwe/keygen.go"]}
{"id": "C49", "title": "BFV evaluators and key sets have no memory", "statement": "The result of AddNew, SubNew, MulRelinNew, RotateNew and ConjugateNew of the BFV Evaluator depends on the operands and the keys in the key set only: after every history of calls, panicking calls, key additions and deletions, on one Evaluator and one RelinearizationKeySet, a call has the outcome (same ciphertext, or panic) that it has on a new Evaluator and a new key set holding the same keys, whatever the scratch buffers of the Evaluator, the KeySwitcher and the key set hold.", "quantifier": "all parameters with an even block structure, all histories of calls including panics, all contents of the buffers, all ciphertexts with one row per modulus, all keys and orders of map iteration", "why_tests_cant": "a stale buffer shows only after a particular earlier call; tests use an evaluator for a handful of calls with fixed operands", "anchors": ["mkbfv/evaluator.go: MulRelinNew, mulRelinHoisted, RotateNew, ConjugateNew, AddNew, SubNew", "mkbfv/keyswitch.go: NewKeySwitcher, DecomposeBFV, ExternalProductBFV, MulAndRelinBFV", "mkbfv/keyswitch_hoisted.go", "mkbfv/keys.go: NewRelinearizationKeyKeySet, AddRelinearizationKey, DelRelinearizationKey", "mkbfv/basis_extension.go"]}
{"id": "C50", "title": "The shipped BFV parameter sets work, with an explicit noise budget", "statement": "All moduli of the parameter sets of the repository (mkbfv PN15QP880 and PN14QP439, mkckks PN15QP880 and PN14QP439, the CNN set PN14QP433) are distinct primes below 2^61 with the 2N-th roots of unity the NTT needs, so the sets meet the hypotheses of all the other properties. With the BFV sets, DefaultSigma (errors up to int(6*3.2) = 19), ternary secrets, up to 64 parties, the CRS of NewParameters and the default rotation keys, every program of AddNew, SubNew, MulRelinNew, RotateNew (any amount) and ConjugateNew decrypts to its result modulo t = 65537 in every register within budget: a fresh ciphertext costs 41 bits (PN14: 40), a sum, difference, rotation or conjugation one bit more than its larger operand, a product 55 (53) bits more, and the budget is 758 (317) bits. So 13 (5) successive squarings, or any program of at most 12 (4) products and 57 (65) other calls, are always decrypted correctly, whatever the keys, errors and messages.", "quantifier": "every program, number of parties up to 64, message, CRS, key, error within the sampler bounds and map iteration order", "why_tests_cant": "the tests multiply once with two to four parties; a worst-case noise overflow has negligible probability under the samplers and a composite modulus shows only on particular coefficients", "anchors": ["mkbfv/mkbfv_test.go: PN15QP880, PN14QP439", "mkckks/mkckks_test.go: PN15QP880, PN14QP439", "cnn/cnn_test.go: PN14QP433", "mkbfv/params.go", "mkbfv/evaluator.go: MulRelinNew, AddNew, SubNew, RotateNew, ConjugateNew", "mkrlwe/params.go: NewParameters"]}
{"id": "C51", "title": "KeyGenerators and Encryptors have no memory and use no sample twice", "statement": "Every key a KeyGenerator (mkrlwe or mkbfv) returns is determined by the arguments of the call, the common reference string and the samples drawn during that call: nothing an earlier call, or a recovered panic, left in the generator's pools, and nothing the caller left in the destination of GenSwitchingKey, has any influence. A call draws a fixed number of samples (1 for a secret or public key, beta for a switching, rotation or conjugation key, 3 beta for a relinearization key, 5 beta for a BFV one), so over any sequence of calls on one generator the samples of different keys never overlap. Encrypt draws three samples and writes into the components \"0\" and pk.ID exactly what it would write into a blank ciphertext, whatever the encryptor's pool and the ciphertext held; it leaves the components of other parties alone. (That Encrypt into a reused ciphertext decrypts to the message alone is false: the old components of other parties stay and count.)", "quantifier": "all histories of calls including panics, all contents of pools and destinations, all sampler outputs, all sequences of key requests", "why_tests_cant": "a stale pool or a reused sample shows only after particular earlier calls and is invisible in decryption results", "anchors": ["mkrlwe/keygen.go: KeyGenerator, GenSecretKeyGaussian, GenPublicKey, GenSwitchingKey, GenRelinearizationKey, GenRotationKey, GenConjugationKey, GenGaussianError", "mkbfv/keygen.go: GenRelinearizationKey, GenBFVSwitchingKey", "mkrlwe/encryptor.go: Encrypt, newEncryptorBase"]}
{"id": "C52", "title": "The shipped CKKS parameter sets work, with an explicit precision rule", "statement": "With the CKKS sets of the repository (mkckks PN15QP880 with scale 2^54, PN14QP439 with scale 2^52; the CNN set PN14QP433 with scale 2^47), DefaultSigma (errors up to 19), ternary secrets, K <= 64 parties (CNN: 2), the CRS of NewParameters and the default rotation keys, every program of AddNew, SubNew, MulRelinNew, RotateNew (any amount), ConjugateNew (at full level), MulPtxtNew and DropLevelNew whose products have a level left runs without a panic, and every register whose slot bound plus error bound stays below the capacity of its level (31, 63, 500 at level 0; 2^40 above) decrypts to a polynomial whose slots divided by the stored scale are within the error bound of the program evaluated on the complex slots. The error bound follows a rule with constants: a fresh ciphertext adds 2^-18 (2^-18, 2^-13) to the encoding error, a rotation or conjugation K 2^-20 (K 2^-20, K 2^-15), a product of registers with bounds m, m' and errors e, e' gives m e' + m' e + e e' times 1 + 2^-48 plus 2^-48 m m' plus (K + 1) 2^-24 (K 2^-24, 2^-7), a sum adds the errors and, because the moduli are not exactly the scale, (2^(L - l) - 1) 2^-27 (2^-27, 2^-21) times the size of the operands at level l of L.", "quantifier": "every program, number of parties up to the limit, complex slot vectors, plaintexts, CRS, keys, errors within the sampler bounds, evaluator states and map iteration orders", "why_tests_cant": "the tests multiply once and check the average precision on random messages; a worst-case bound over all programs and randomness cannot be sampled", "anchors": ["mkckks/mkckks_test.go: PN15QP880, PN14QP439", "cnn/cnn_test.go: PN14QP433", "mkckks/evaluator.go: AddNew, SubNew, MulRelinNew, RotateNew, ConjugateNew, MulPtxtNew, DropLevelNew, Rescale", "mkckks/encryptor.go: EncryptMsgNew", "mkrlwe/params.go: NewParameters"]}
{"id": "C53", "title": "Parameter constructors accept the right literals and what they return is well-formed", "statement": "mkbfv.NewParametersFromLiteral returns parameters exactly for the literals with LogN >= 4, as many moduli in QMul as in Q, at least one modulus in Q and two in P, no modulus repeated in Q and QMul together or within P, and T and all moduli primes that are 1 mod 2N; on every other literal it panics. The result has T, Q, P, R = Q ++ QMul, gamma = 2 and CRS keys of every default index in both bases. mkckks.NewParameters panics exactly if there are fewer than two special primes and otherwise keeps moduli, scale and number of slots. If moreover P is disjoint from Q and QMul and has an even number of primes or three, the parameters meet what every other property assumes; such are the literals of the repository. (One may expect that an accepted literal is always usable. It is not: the constructors compare no prime of P with those of Q and QMul, and every key switch with a shared prime gives 0 modulo that prime whatever its operands; and with five, seven, ... special primes they succeed but every Decompose above level 0 panics.)", "quantifier": "every literal: degree, moduli, plaintext modulus, random words of the CRS; every ring polynomial and key for the refuted expectation", "why_tests_cant": "the tests construct the three shipped parameter sets", "anchors": ["mkbfv/params.go: NewParametersFromLiteral, T, RingQMul, RingR, RingRP", "mkrlwe/params.go: NewParameters, Alpha, Beta, Gamma", "mkckks/params.go: NewParameters, Scale, Slots", "mkrlwe/basis_extension.go: genModDownParams, ModDownQPtoQ"]}
{"id": "C54", "title": "Concurrent BFV multiplications need a RelinearizationKeySet each", "statement": "A mkbfv MulRelinNew call, on its own Evaluator, returns its own product whenever from its first step to its last no other call that uses the same RelinearizationKeySet makes a step, whatever calls ran before on that key set and whatever calls on other key sets run meanwhile. (One may expect, as for mkckks, that overlapping calls with disjoint parties do not disturb each other. They do: all calls lift component \"0\" of their operands into the same buffers of the key set. For every two calls on one key set there is a schedule in which the first multiplies, instead of its own first operand, the ciphertext with its own party components and the other call's component \"0\" (and the other's component of every shared party), and one in which this happens to both operands; there are a call of alice and a call of bob after which alice's result decrypts to the product of bob's message and hers.)", "quantifier": "every number of calls, Evaluators, key sets, operands, map iteration order, previous content of every buffer, and every schedule of the steps", "why_tests_cant": "the tests run one multiplication at a time; no test can run every schedule", "anchors": ["mkbfv/evaluator.go: MulRelinNew, mulRelinHoisted", "mkbfv/keys.go: RelinearizationKeySet, NewRelinearizationKeySet, AddRelinearizationKey", "mkbfv/keyswitch_hoisted.go: MulAndRelinBFVHoisted", "mkbfv/basis_extension.go: ModUpQtoR, Rescale"]}
{"id": "C55", "title": "CKKS ciphertexts behave like independent values", "statement": "A program that creates ciphertexts and calls the exported operations of one mkckks Evaluator on them (CopyNew, AddNew, SubNew, DropLevel, DropLevelNew, MultByConst and Rescale into any receiver including the operand, RescaleNew, MulPtxtNew, MulRelinNew, MulRelinHoistedNew, RotateNew, RotateHoistedNew, ConjugateNew), in any order and with operands repeated at will, panics exactly where the same program on independent values panics, and otherwise every ciphertext it holds has the contents it has there. A call leaves every ciphertext but its declared receiver unchanged: operands, earlier results, copies. After any history no polynomial is shared by two components, two ciphertexts or a ciphertext and the Evaluator's scratch space, so writing into one ciphertext never changes another.", "quantifier": "every parameter set, every program, every choice of operands and receivers, every map iteration order", "why_tests_cant": "the tests compare decrypted results of single calls; they never check operands afterwards or mutate a result, and cannot cover all interleavings of calls on shared operands", "anchors": ["mkrlwe/elements.go: NewCiphertext, CopyNew, Copy, PadCiphertext", "mkckks/evaluator.go: NewEvaluator, DropLevel, MultByConst, evaluateInPlace, newCiphertextBinary, AddNew, SubNew, Rescale, RescaleNew, MulPtxtNew, MulRelinNew, MulRelinHoistedNew, RotateNew, RotateHoistedNew, ConjugateNew", "mkrlwe/keyswitch.go: Rotate, Conjugate, MulAndRelin", "mkrlwe/keyswitch_hoisted.go: MulAndRelinHoisted, RotateHoisted"]}
{"id": "C56", "title": "BFV ciphertexts behave like independent values", "statement": "A program that creates ciphertexts and calls the exported operations of a mkbfv Evaluator on them (CopyNew, AddNew, SubNew, MulRelinNew, RotateNew, ConjugateNew), in any order and with operands repeated at will, panics exactly where the same program on independent values panics, and otherwise every ciphertext it holds has the contents it has there. Every call leaves all existing ciphertexts unchanged. After any history no polynomial is shared by two components or two ciphertexts, so writing into one ciphertext never changes another.", "quantifier": "every parameter set, every program, every choice of operands, every map iteration order", "why_tests_cant": "the tests compare decrypted results of single calls; they never check operands afterwards or mutate a result, and cannot cover all interleavings of calls on shared operands", "anchors": ["mkrlwe/elements.go: NewCiphertext, CopyNew, Copy", "mkbfv/evaluator.go: newCiphertextBinary, evaluateInPlace, AddNew, SubNew, MulRelinNew, RotateNew, ConjugateNew", "mkbfv/keyswitch_hoisted.go: MulAndRelinBFVHoisted", "mkrlwe/keyswitch.go: Rotate, Conjugate"]}
{"id": "C57", "title": "Hoisting never changes the result of a program", "statement": "Take any CKKS client program that also uses the hoisting interface: HoistedForm of a ciphertext kept and reused for any number of later MulRelinHoistedNew and RotateHoistedNew calls, mixed at will with the other operations and with CopyNew. If each hoisted form passed in was made from the operand it is passed with, and every hoisted rotation amount is in the common reference string, the program returns, bit for bit, the ciphertexts of the same program with MulRelinNew and RotateNew instead (for some iteration order of the maps). So its decrypted slots are within the same error bound of what the program computes on the plain slots.", "quantifier": "every parameter set, number of parties, program, sharing of hoisted forms between calls, map iteration order", "why_tests_cant": "the tests compare one hoisted call with one plain call by decrypting approximately, for one parameter set; they do not reuse a hoisted form over a program or compare ciphertexts", "anchors": ["mkckks/evaluator.go: HoistedForm, MulRelinHoistedNew, RotateHoistedNew, MulRelinNew, RotateNew", "mkckks/elements.go: CopyNew", "mkrlwe/keyswitch_hoisted.go: MulAndRelinHoisted, RotateHoisted"]}
{"id": "C58", "title": "Known value bounds sharpen the precision rule", "statement": "For a CKKS parameter set whose moduli are close to its scale, take any client program (hoisting or not) and any bounds the client can give for the exact values of the registers, i.e. of the program run on plain slots. Propagating only the errors with the rule of C52 and these bounds (instead of worst-case products and sums), every register whose bound plus error fits its level decrypts to within that error of the exact slots, for the keys, encryptions and samples the library makes. Worst-case bounds are one legal choice and give back the rule of C52; smaller bounds never give larger errors and never change the levels. The rule can be evaluated with integers: a fixed-point calculator (units of 2^-60, rounding up) that accepts a program guarantees the same conclusion with its own bounds.", "quantifier": "every parameter set meeting the numeric conditions, every number of parties, program, message, client bounds of the exact values, samples within their bounds, map iteration order", "why_tests_cant": "a test checks one program on random messages and cannot show that the error of each register depends only on value bounds known to the client", "anchors": ["mkckks/evaluator.go: AddNew, SubNew, MulRelinNew, MulPtxtNew, RotateNew, ConjugateNew, DropLevelNew, Rescale, HoistedForm, MulRelinHoistedNew, RotateHoistedNew", "mkckks/encryptor.go: EncryptMsgNew", "mkrlwe/decryptor.go: Decrypt"]}
{"id": "C59", "title": "Encrypted CNN inference gives the plain network's answer", "statement": "The inference of cnn/cnn_test.go, from key generation to the decision: the data owner encrypts the packed image, the model owner the packed weights, anybody evaluates convolution, square, first and second fully connected layer on ciphertexts under two keys, and both secret keys decrypt. For every network, image, keys, encryption randomness within its bounds, and map iteration order: the evaluation does not panic, the ten slots of the result differ from the outputs of the plain network (4x4 stride-2 convolution, square, 845x64 layer, square, 64x10 layer, computed on the same numbers) by at most an error that an integer calculator obtains from bounds of image and weights, and if one class leads the others by more than twice that error (plus the decoding error) and is above -100, the decision loop of the test returns that class. In particular the packing, the rotations with their key set and the masks compute the intended network exactly on plain slots. (For the parameter set of the test, PN14QP433, the guaranteed error is large for all but tiny weights: the theorem guarantees decryption but not a useful precision; with the set PN15QP880 of mkckks_test.go it is below 0.03 for the bounds given in the examples.)", "quantifier": "every network, image, secret keys, samples within their bounds, common reference string, map iteration order, and weight bounds the calculator accepts", "why_tests_cant": "the test runs a few images of one data set with one trained network; the packing indices and rotation amounts are only exercised through the final argmax", "anchors": ["cnn/cnn.go: Convolution, FC1Layer, FC2Layer", "cnn/cnn_test.go: TestCNN, genTestParams, encryptImage, encryptKernels, encryptFC1, encryptFC2, encryptB1, encryptB2", "mkckks/evaluator.go: HoistedForm, MulRelinHoistedNew, RotateHoistedNew, MulPtxtNew, AddNew, RotateNew", "mkckks/encryptor.go: EncryptMsgNew", "mkrlwe/decryptor.go: Decrypt"]}
{"id": "C60", "title": "Division by P in the NTT domain equals division in the coefficient domain", "statement": "ModDownQPtoQNTT on the transform of an integer polynomial X (rows modulo Q_0..Q_levelQ and P_0..P_levelP) does not panic and returns, fully reduced, exactly the transform of the quotient of X by the product of the P moduli used, up to a remainder in [0, P) (with the 2^-40 exception of C08): the same words as transforming back, calling ModDownQPtoQ and transforming again. It does not matter whether lattigo's lazy transforms return a or a + q. The P part of the input is not preserved: it afterwards holds its inverse transform. The result may overwrite the Q part of the input.", "quantifier": "every parameter set, every levels, every polynomial, every choice of representatives by the lazy transforms", "why_tests_cant": "word-level wrap-around of the lazily reduced operands and the float quotient of the basis conversion depend on the values; the repository only uses the function inside two tests", "anchors": ["mkrlwe/basis_extension.go: FastBasisExtender.ModDownQPtoQNTT, ModUpPtoQ, genModDownParams"]}
{"id": "C61", "title": "CKKS programs over the whole evaluator interface, with in-place calls on shared storage, compute on the slots what they stand for", "statement": "All parties make their keys with the key generator, encoded slot vectors are encrypted with EncryptMsgNew, and a client holding pointers to these ciphertexts runs any sequence of calls of one Evaluator on them: CopyNew, AddNew, SubNew, MulPtxtNew, MulRelinNew, MulRelinHoistedNew, RotateNew, RotateHoistedNew, ConjugateNew, DropLevelNew, RescaleNew, and, writing into a ciphertext it names, DropLevel, MultByConst (an integral constant below 2^52 or a float64 constant with a fraction, into the operand or into any other ciphertext of the same parties and no higher level) and Rescale (in place, or into another ciphertext of the same parties with room for the result). If every call meets the documented preconditions, no call panics, every ciphertext held at the end has exactly the parties, level and scale its history gives, and Decrypt with everybody's secret keys returns, for each one whose plaintext fits its modulus, slots within an explicit error bound of what the sequence computes on complex vectors with the same assignments. A fractional constant costs at most (1 + float rounding) / q of relative precision, an integral one none; a Rescale that reports an error changes nothing.", "quantifier": "every parameter set, every number of parties, every sequence of calls (any length, any aliasing of operands and receivers), every key, error and encryption sample within the bounds, every iteration order of the maps", "why_tests_cant": "the sequences of calls, their aliasing patterns and the samples are infinitely many; the repository tests single calls on fresh ciphertexts", "anchors": ["mkckks/evaluator.go: DropLevel, MultByConst, Rescale, RescaleNew, AddNew, SubNew, MulRelinNew, MulRelinHoistedNew, RotateNew, RotateHoistedNew, ConjugateNew, MulPtxtNew", "mkckks/elements.go: CopyNew", "mkckks/encryptor.go: EncryptMsgNew", "mkckks/decryptor.go: Decrypt"]}
{"id": "C62", "title": "BFV programs on shared storage take vectors of integers to vectors of integers", "statement": "All parties make their keys with the key generator, vectors of at most N integers from -t to t-1 (N the ring degree, t the plaintext modulus) are encrypted with EncryptMsgNew, and a server holding pointers to these ciphertexts runs any sequence of CopyNew, AddNew, SubNew, MulRelinNew, RotateNew and ConjugateNew of one Evaluator. No call panics; every ciphertext held at the end has exactly the parties its history gives; and Decrypt with everybody's secret keys returns, for each one whose noise bound is below Q/2, N integers between -t/2 and t/2 that agree modulo t with the same sequence on plain vectors: sums, differences and products entry by entry, RotateNew by k turning each of the two rows of N/2 entries by k to the left (k taken modulo N/2), ConjugateNew swapping the two rows, missing entries zero. For the two shipped BFV parameter sets, up to 64 parties and any rotation amounts, the noise condition is a count of bits: with PN15QP880 a fresh ciphertext costs 41, a product 55 more than its larger operand, a copy nothing and any other call one more, and everything up to 758 decrypts; with PN14QP439 40, 53 and 317. EncryptMsgNew of more than N values panics.", "quantifier": "every parameter set, every number of parties, every message, every sequence of calls, every key, error and encryption sample within the bounds, every iteration order of the maps", "why_tests_cant": "the messages, programs and samples are infinitely many; the repository tests single calls on fresh random messages", "anchors": ["mkbfv/encryptor.go: EncryptMsg, EncryptMsgNew", "mkbfv/decryptor.go: Decrypt", "mkbfv/evaluator.go: AddNew, SubNew, MulRelinNew, RotateNew, ConjugateNew", "mkbfv/keygen.go", "mkrlwe/elements.go: CopyNew", "mkbfv/params.go"]}
{"id": "C63", "title": "Programs over the whole CKKS interface are precise with the shipped parameter sets, by an explicit rule", "statement": "With the three CKKS parameter sets of the repository (mkckks_test PN15QP880 with scale 2^54 and PN14QP439 with scale 2^52, up to 64 parties; cnn_test PN14QP433 with scale 2^47, two parties), default keys, and inputs encrypted with EncryptMsgNew, a client program may use every exported call of one Evaluator on the pointers it holds: AddNew, SubNew, MulRelinNew, MulPtxtNew, RotateNew by any amount, ConjugateNew at full level, DropLevelNew, CopyNew, the in-place calls DropLevel, MultByConst by an integer below 2^52 or by a float with a fraction (into any ciphertext of the same parties and no higher level), Rescale with the default scale in place or into another ciphertext, RescaleNew, MulRelinHoistedNew, and RotateHoistedNew by a power of two. No call panics; every ciphertext has at each end of the program the parties and the level that a simple rule predicts; and each one that is not waiting for a Rescale decrypts, with everybody's secret keys, to slots within the error of the rule of what the program computes on complex vectors, as long as slots plus error stay below a stated capacity. The rule is arithmetic on three numbers per ciphertext (level, size, error): multiplying by an integer z multiplies size and error by |z|; by a fractional x multiplies them by |x| and adds 2^-48 |x| plus 4/scale (2^-48 for PN14QP439, 2^-40 for PN14QP433) of size plus error, then one Rescale lowers the level by one and costs the rounding of a product; Rescale of any other ciphertext changes nothing; the other calls cost what C52 says.", "quantifier": "every program the rule allows, every number of parties up to the limit, every message, every key, error and encryption sample within the bounds, every iteration order of the maps, every aliasing of receivers and operands the rule allows", "why_tests_cant": "programs, constants and samples are infinitely many; the accumulated error of a composition of calls is not visible in a test of one call", "anchors": ["mkckks/evaluator.go: AddNew, SubNew, MulRelinNew, MulPtxtNew, RotateNew, ConjugateNew, DropLevel, DropLevelNew, MultByConst, Rescale, RescaleNew, MulRelinHoistedNew, RotateHoistedNew", "mkckks/mkckks_test.go: parameter literals", "cnn/cnn_test.go: parameter literal"]}
{"id": "C64", "title": "Shallow copies of a basis extender can be used concurrently, one extender cannot", "statement": "Whatever extenders were created and shallow-copied (a copy of nil is nil, a copy has the moduli of the original and work buffers of its own), calls of ModDownQPtoQ and ModDownQPtoP that run in different goroutines, each on its own extender (or on one extender in different directions), none writing a polynomial another one uses (inputs may be shared, each call may work in place), never panic and leave in their output polynomials, under every interleaving of their word reads and writes, the same exact divisions as alone; no other polynomial of the caller changes. A call on a nil extender, or at a level beyond the moduli of the extender, panics, whatever else runs. (Expecting the same from two ModDownQPtoQ calls on one extender is wrong: for every such pair of equal levels there is an interleaving on which both finish and the first has divided with the remainders of the other call's P part, a wrong result whenever the two inputs differ modulo P.)", "quantifier": "all histories of creating and copying extenders, all moduli, levels, memory contents, numbers of calls, aliasings and schedules", "why_tests_cant": "a test sees a few interleavings; races show on schedules the test machine never takes", "anchors": ["mkrlwe/basis_extension.go:FastBasisExtender", "mkrlwe/basis_extension.go:NewFastBasisExtender", "mkrlwe/basis_extension.go:ShallowCopy", "mkrlwe/basis_extension.go:ModDownQPtoQ", "mkrlwe/basis_extension.go:ModDownQPtoP", "mkrlwe/basis_extension.go:modUpExact"]}
{"id": "C65", "title": "Copies of keys are independent, key sets hold the key itself", "statement": "For every history of creating secret and public keys, copying them with CopyNew, writing words of their polynomials, changing their ID, and adding them to and deleting them from key sets: every key variable holds what it would hold if keys were plain values and CopyNew copied the value (so a copy never changes when the original does, nor the original when the copy does; a copy of nil is nil). A set returns the very key that was added, under the ID it had when it was added: later writes to it are seen through the set, while a set given a copy is not affected.", "quantifier": "all histories of creations, copies, writes, renames, additions and deletions", "why_tests_cant": "aliasing shows only for the right sequence of copy and write on the right component; a test checks one", "anchors": ["mkrlwe/keys.go:SecretKey.CopyNew", "mkrlwe/keys.go:PublicKey.CopyNew", "mkrlwe/keys.go:NewSecretKey", "mkrlwe/keys.go:NewPublicKey", "mkrlwe/keys.go:AddSecretKey", "mkrlwe/keys.go:GetSecretKey", "mkrlwe/keys.go:DelSecretKey"]}
{"id": "C66", "title": "StandardDeviation and scaleDown are accurate", "statement": "StandardDeviation of a non-empty vector of N (at most 2^24) finite floats of magnitude at most M, with a positive scale s (M and s between 2^-300 and 2^300), is finite, not negative, and differs from s times the population standard deviation of the exact values by at most s*M*(N+3)*2^-51; for one value it is exactly 0. scaleDown of an integer of magnitude up to 2^400 by a scale of magnitude between 2^-500 and 2^500 is the quotient with a relative error of at most 2^-51. (Expected but false: equal values give exactly 0, since three copies of 0.1 give a positive number; the empty vector gives NaN; for values like 2^600 the result overflows although the deviation is a float64.)", "quantifier": "all vectors, scales and integers within the stated ranges", "why_tests_cant": "rounding errors depend on every value and on their order; a test compares a few vectors", "anchors": ["mkckks/utils.go:StandardDeviation", "mkckks/utils.go:scaleDown"]}
{"id": "C67", "title": "Product circuits of full depth keep a known precision with the shipped CKKS parameters", "statement": "With the first two shipped CKKS parameter sets (15 and 14) at their default scales, up to 64 parties and any number of encrypted vectors with slots in the unit disc, every circuit of MulRelinNew calls on fresh inputs and earlier results, of any size and shape, whose multiplicative depth is at most the number of levels (13 resp. 5) runs without panicking, and each result of depth d decrypts in every slot to the exact product up to an error of 2^(d-16) and has d levels less; in particular n <= 13 squarings give the 2^n-th powers up to 2^(n-16).", "quantifier": "all circuits of products within the depth, all messages in the unit disc, all parties (up to 64), keys, randomness and map orders", "why_tests_cant": "tests multiply once or twice and compare a few random vectors; the error of a deep circuit depends on every message, key and sample", "anchors": ["mkckks/evaluator.go:MulRelinNew", "mkckks/evaluator.go:Rescale", "mkckks/encryptor.go:EncryptMsgNew", "mkckks/decryptor.go:Decrypt", "mkrlwe/keyswitch.go:MulAndRelin"]}
{"id": "C68", "title": "Encryptors and Decryptors need one goroutine at a time", "statement": "A call of EncryptMsgNew or EncryptPtxt on an Encryptor, of Decrypt on a mkckks or mkbfv Decryptor, or of mkrlwe's Decrypt into a plaintext returns what it returns alone (for an encryption with the next samples of its Encryptor) on every schedule in which no other call on the same Encryptor, Decryptor or plaintext makes a step between its first and its last, whatever ran before and whatever runs on other objects; so goroutines with their own objects never disturb each other. (Sharing one object is refuted: for every two EncryptMsgNew calls on one Encryptor there is a schedule in which the first returns an encryption of the second's message under its own public key; for every two EncryptPtxt calls of full-level plaintexts one in which both ciphertexts use the same mask, and then the difference of their components \"0\" shows the difference of the plaintexts up to the small errors; for every two Decrypt calls on one Decryptor one in which the first returns the second's message, in mkckks also one in which it decodes its own polynomial with the second's scale and, if the second has a lower level, one in which the first panics.)", "quantifier": "all schedules, all numbers of goroutines and objects, all plaintexts, ciphertexts, keys, samples and map orders, all earlier states of the objects", "why_tests_cant": "a test runs one schedule at a time and the harmful interleavings are narrow; the race detector sees a race but not that messages are exchanged or masks reused", "anchors": ["mkrlwe/encryptor.go:Encrypt", "mkckks/encryptor.go:EncryptMsgNew", "mkckks/encryptor.go:EncryptPtxt", "mkbfv/encryptor.go:EncryptMsgNew", "mkbfv/encryptor.go:EncryptPtxt", "mkrlwe/decryptor.go:Decrypt", "mkckks/decryptor.go:Decrypt", "mkbfv/decryptor.go:Decrypt"]}
{"id": "C69", "title": "Evaluators need one goroutine at a time", "statement": "A call of RotateNew, RotateHoistedNew or ConjugateNew on a mkckks Evaluator, or of RotateNew or ConjugateNew on a mkbfv Evaluator, returns what it returns alone (panics included) on every schedule in which no other call on the same Evaluator makes a step between its first and its last, after a number of its own steps that does not depend on the other goroutines; whatever ran on the Evaluator before, calls cut off in the middle included, does not matter, and goroutines with an Evaluator each may share parameters, CRS, ciphertexts, hoisted forms and key sets. (Sharing one Evaluator is refuted: for every two RotateNew calls on one mkckks Evaluator, of ciphertexts of the same parties and level and by amounts with a CRS entry, that succeed alone, there is a schedule in which the first returns the second's rotated ciphertext with its own scale; with default keys, two goroutines that rotate one ciphertext by kA and kB, and the first gets the slots shifted by kB, no error reported.)", "quantifier": "all schedules, all numbers of goroutines and Evaluators, all ciphertexts, amounts, keys and map orders, all earlier states of the buffers", "why_tests_cant": "a test runs one schedule at a time; the harmful interleavings are a few instructions wide and give a well-formed ciphertext of a wrong rotation", "anchors": ["mkckks/evaluator.go:RotateNew", "mkckks/evaluator.go:RotateHoistedNew", "mkckks/evaluator.go:ConjugateNew", "mkbfv/evaluator.go:RotateNew", "mkbfv/evaluator.go:ConjugateNew", "mkrlwe/keyswitch.go:Rotate", "mkrlwe/keyswitch.go:Conjugate", "mkrlwe/keyswitch_hoisted.go:RotateHoisted"]}
{"id": "C70", "title": "mkckks Evaluators and RelinearizationKeySets need one goroutine at a time", "statement": "A call of AddNew, SubNew, MulPtxtNew, MulRelinNew (squares included), MulRelinHoistedNew, RotateNew, RotateHoistedNew (with HoistedForm) or ConjugateNew returns what it returns alone on a new Evaluator with the same relinearization keys (panics included), on every schedule in which no other call on the same Evaluator or the same RelinearizationKeySet makes a step between its first and its last, after a number of its own steps that does not depend on the other goroutines, whatever ran on the Evaluator and the key set before, calls cut off in the middle included; goroutines with an Evaluator and a key set each may share everything else. (Sharing is refuted: for every two MulPtxtNew calls on one Evaluator, of ciphertexts of one level, there is a schedule in which the first returns its ciphertext times the second's plaintext, which decrypts to that product, no error reported; and an Evaluator for each goroutine is not enough: two MulRelinNew calls on different Evaluators that use one RelinearizationKeySet, for operands of the same levels with the parties of the first among those of the second, and the first may return what MulRelinHoistedNew returns for its operands with the hoisted forms of the second's operands.)", "quantifier": "all schedules, all numbers of goroutines, Evaluators and key sets, all ciphertexts, plaintexts, keys and map orders, all earlier contents of the buffers", "why_tests_cant": "a test runs one schedule at a time; the harmful interleavings are a few instructions wide and give a well-formed ciphertext of a wrong product; that key sets carry scratch memory does not show in any signature", "anchors": ["mkckks/evaluator.go:AddNew", "mkckks/evaluator.go:SubNew", "mkckks/evaluator.go:MulPtxtNew", "mkckks/evaluator.go:MulRelinNew", "mkckks/evaluator.go:MulRelinHoistedNew", "mkckks/evaluator.go:HoistedForm", "mkrlwe/keys.go:RelinearizationKeySet", "mkrlwe/keyswitch_hoisted.go:MulAndRelinHoisted"]}
{"id": "C71", "title": "BFV external product multiplies and rescales up to a bounded error", "statement": "If swk1, swk2 were made by the mkbfv GenBFVSwitchingKey for the secret s (or are any vectors of the same form) and aR holds residues of an integer polynomial X modulo all primes of Q and QMul, then ExternalProductBFV(aR, swk1, swk2) does not panic and returns canonical residues modulo Q of an integer polynomial W with QMul*W = t*X*s + E, E bounded by an explicit formula in the number of digits, N, the digit bound, P, QMul, the error bound and the size of s; X may be any representative. (GenBFVSwitchingKey does not accept every parameter set: it always panics when the number of primes of Q is not a multiple of alpha.)", "quantifier": "all parameters accepted by the library with full block chains, all polynomials X (any size), secrets, error samples", "why_tests_cant": "the statement is about all residue vectors and all error samples; a test sees one product at a time and the error bound is never computed", "anchors": ["mkbfv/keygen.go:GenBFVSwitchingKey", "mkbfv/keyswitch.go:DecomposeBFV", "mkbfv/keyswitch.go:ExternalProductBFV", "mkbfv/keyswitch_hoisted.go:ExternalProductBFVHoisted"]}
{"id": "C72", "title": "sums do not depend on the order or the grouping of the additions", "statement": "Adding the same ciphertexts with AddNew (mkckks, equal scales and any levels; mkbfv) in any order and any grouping gives bit-identical ciphertexts: the same scale, the least of the levels, the union of the identities, and for every identity and prime the reduced sum of the polynomials, if the coefficients of the ciphertexts are smaller than their moduli, as everything Encrypt returns in the coefficient domain is. (SubNew does not have this property: it negates the polynomials only its second operand has, so zero coefficients of them become the modulus itself, and (c0 + z) - c1 with z = 0 may differ from c0 - c1.)", "quantifier": "all lists of ciphertexts, all trees of additions over them, all levels and parameter sets, all map iteration orders in every call, any state of the evaluator's scratch space", "why_tests_cant": "the number of orders and groupings is exponential in the number of ciphertexts, and map iteration orders cannot be forced", "anchors": ["mkckks/evaluator.go:AddNew", "mkckks/evaluator.go:SubNew", "mkckks/evaluator.go:evaluateInPlace", "mkbfv/evaluator.go:AddNew", "mkrlwe/encryptor.go:Encrypt"]}
{"id": "C73", "title": "evaluation uses the keys of the participants and no others", "statement": "MulRelinNew, MulRelinHoistedNew, RotateNew, RotateHoistedNew and ConjugateNew of mkckks and MulRelinNew, RotateNew and ConjugateNew of mkbfv depend only on the keys of the parties of their ciphertexts, and rotations only on the keys for the amounts they apply: any two key sets that agree on these give bit-identical results (including whether the call panics), whatever they hold for other parties or amounts. A call for which such a key is missing panics and never returns a ciphertext. With r = k modulo the number of slots, a rotation by k applies no key for r = 0, the key for r if the CRS has an entry for r (also if the keys for powers of two are there and the one for r is not: then it panics), and otherwise the keys for the powers of two r is the sum of.", "quantifier": "all ciphertexts, pairs of key sets, hoisted forms, amounts (also negative and larger than the number of slots), CRS contents, parameter sets and map iteration orders", "why_tests_cant": "key sets are unbounded maps and two runs with different sets have to be compared for all of them", "anchors": ["mkrlwe/keyswitch.go:MulAndRelin", "mkrlwe/keyswitch_hoisted.go:MulAndRelinHoisted", "mkrlwe/keyswitch.go:Rotate", "mkrlwe/keyswitch.go:Conjugate", "mkrlwe/keys.go:GetRelinearizationKey", "mkrlwe/keys.go:GetRotationKey", "mkckks/evaluator.go:rotate", "mkckks/evaluator.go:MulRelinNew", "mkbfv/evaluator.go:MulRelinNew", "mkbfv/evaluator.go:rotate"]}
{"id": "C74", "title": "evaluation is deterministic", "statement": "Go iterates over maps in random order, and every evaluation call has loops over maps of parties. The result does not depend on these orders, bit by bit: two calls of RotateNew, RotateHoistedNew, ConjugateNew, MulRelinNew, MulRelinHoistedNew, AddNew, SubNew, MulPtxtNew, MultByConst, DropLevel, DropLevelNew, Rescale or RescaleNew of mkckks, or of AddNew, SubNew, MulRelinNew, RotateNew or ConjugateNew of mkbfv, on the same operands and keys with any iteration orders both panic or both return, and return the same identities with the same polynomials (the same 64-bit words, not only the same residues) and the same scale. The operands of the two calls may themselves be results of differently ordered calls, and two runs of any client program of mkckks or mkbfv (encryption of its inputs with the same sampled noise, then any sequence of evaluator calls) leave the same ciphertexts in every register. Decrypt (mkrlwe, mkckks, mkbfv) of such ciphertexts gives the same plaintext polynomial, or panics in both runs.", "quantifier": "all iteration orders of all loops, ciphertexts, numbers of parties, levels, amounts, key sets (well-formed ones for multiplication) and parameter sets", "why_tests_cant": "the orders are chosen at random by the runtime and their number grows with the factorial of the number of parties", "anchors": ["mkrlwe/keyswitch.go:MulAndRelin", "mkrlwe/keyswitch_hoisted.go:MulAndRelinHoisted", "mkrlwe/keyswitch.go:Rotate", "mkrlwe/keyswitch_hoisted.go:RotateHoisted", "mkrlwe/keyswitch.go:Conjugate", "mkrlwe/elements.go:Copy", "mkckks/evaluator.go:MulRelinNew", "mkckks/evaluator.go:rotate", "mkckks/evaluator.go:ConjugateNew", "mkckks/evaluator.go:Rescale", "mkckks/evaluator.go:evaluateInPlace", "mkckks/evaluator.go:MultByConst", "mkckks/evaluator.go:MulPtxtNew", "mkckks/evaluator.go:DropLevel", "mkbfv/evaluator.go:AddNew", "mkbfv/evaluator.go:SubNew", "mkbfv/evaluator.go:MulRelinNew", "mkbfv/keyswitch_hoisted.go:MulAndRelinBFVHoisted", "mkbfv/evaluator.go:RotateNew", "mkbfv/evaluator.go:ConjugateNew", "mkrlwe/decryptor.go:Decrypt", "mkckks/decryptor.go:Decrypt", "mkbfv/decryptor.go:Decrypt"]}
{"id": "C75", "title": "distributed decryption gives the plaintext of Decrypt, whatever the order of the parties", "statement": "PartialDecrypt by any distinct parties of a ciphertext, one call after the other, succeeds; it leaves the identities that have not contributed with their polynomials unchanged, and does not change the decryption. The resulting ciphertext depends only on the set of parties that contributed: any two orders give bit-identical ciphertexts. When all parties have contributed, only component \"0\" is left, and it holds exactly the polynomial that Decrypt (mkrlwe and mkckks, at a plaintext level not below the ciphertext's; mkbfv: what is handed to the decoder) gives with all keys. A call with the key of an identity that the ciphertext does not have, in particular a second contribution of a party, panics.", "quantifier": "all ciphertexts (any number of parties, level, domain), all sequences of contributions, all map iteration orders and parameter sets", "why_tests_cant": "the number of orders is factorial in the number of parties and the subsets that may have contributed are exponentially many", "anchors": ["mkrlwe/decryptor.go:PartialDecrypt", "mkrlwe/decryptor.go:Decrypt", "mkckks/decryptor.go:PartialDecrypt", "mkbfv/decryptor.go:PartialDecrypt", "mkbfv/decryptor.go:Decrypt"]}
