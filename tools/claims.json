[
{"property": "C01", "status": "proved", "theorems": ["C01_idset_is_a_finite_set", "C01_add_reserved_panics"], "note": "for every iteration order of the Go maps"},
{"property": "C02", "status": "proved", "theorems": ["C02_key_set_returns_last_key", "C02_relin_key_set_returns_last_key", "C02_relin_key_set_has_buffers", "C02_rotation_key_set_returns_last_key"], "note": ""},
{"property": "C03", "status": "proved", "theorems": ["C03_new_ciphertext", "C03_new_ciphertext_ntt", "C03_id_set", "C03_copy_new", "C03_copy", "C03_pad"], "note": "NewCiphertext(NTT), IDSet, CopyNew and Copy (values and object independence on a heap), PadCiphertext for every iteration order"},
{"property": "C04", "status": "proved", "theorems": ["C04_crs_indices", "C04_default_keys", "C04_amounts"], "note": "CRS index set, default keys and binary expansion, all logN"},
{"property": "C05", "status": "proved", "theorems": ["C05_beta_is_the_ceiling", "C05_blocks_partition_the_moduli"], "note": "float64 division and Ceil modelled with Flocq binary64; levels and alpha below 2^52"},
{"property": "C06", "status": "proved", "theorems": ["C06_mred", "C06_mform", "C06_bred", "C06_cred", "C06_modexp", "C06_multsum"], "note": ""},
{"property": "C07", "status": "proved", "theorems": ["C07_qoverqiinvqi", "C07_qoverqimodp", "C07_vtimesqmodp", "C07_moddown_constant"], "note": ""},
{"property": "C08", "status": "proved", "theorems": ["C08_modup_one_integer", "C08_exact_refuted"], "note": "exactness is refuted by a concrete input; outputs stay below 6p, not 2p as the comment says"},
{"property": "C09", "status": "proved", "theorems": ["C09_moddown_floor", "C09_rounding_refuted"], "note": "floor, not rounding (refuted)"},
{"property": "C10", "status": "proved", "theorems": ["C10_moddownP_equal_levels", "C10_moddownP_refuted", "C10_moddownP_panics"], "note": "equal levels; unequal levels refuted (wrong value) or panic"},
{"property": "C11", "status": "proved", "theorems": ["C11_digit", "C11_decompose", "C11_gamma_must_divide"], "note": "for coefficient- and NTT-domain inputs; gamma must divide the number of special primes or alpha = 1 (otherwise decomposition panics: C11_gamma_must_divide)"},
{"property": "C12", "status": "proved", "theorems": ["C12_external_product_any_key", "C12_external_product", "C12_ntt_input"], "note": ""},
{"property": "C13", "status": "proved", "theorems": ["C13_secret_key", "C13_public_key", "C13_relinearisation_key", "C13_rotation_key", "C13_conjugation_key", "C13_crs_entries"], "note": "samples are inputs (rows holding the residues of one bounded polynomial)"},
{"property": "C14", "status": "proved", "theorems": ["C14_fresh", "C14_ternary"], "note": "all four flag combinations, all orders, explicit error and bound"},
{"property": "C15", "status": "proved", "theorems": ["C15_value", "C15_missing_key", "C15_order_and_irrelevant_keys", "C15_partial_commute", "C15_arguments_unchanged"], "note": "value, exact order independence, irrelevant keys, panic iff missing key, commuting partial decryptions, arguments unchanged on the heap"},
{"property": "C16", "status": "proved", "theorems": ["C16_decrypt", "C16_partial_sum", "C16_missing_key_refuted"], "note": "restated: a missing key is not reported (refuted expectation); the polynomial handed to the decoder is modelled, DecodeInt (lattigo) is not"},
{"property": "C17", "status": "proved", "theorems": ["C17_history", "C17_same_as_fresh", "C17_decoded_unique", "C17_small_message", "C17_same_message_refuted"], "note": "object model with the plaintext buffer threaded through arbitrary histories; independence of earlier calls is refuted in general and proved for non-lower histories and for small messages"},
{"property": "C18", "status": "proved", "theorems": ["C18_add", "C18_sub", "C18_decrypt"], "note": "mkckks; mkbfv addition is C45"},
{"property": "C19", "status": "proved", "theorems": ["C19_add", "C19_sub", "C19_factor", "C19_odd_ratio_refuted", "C19_huge_ratio_refuted"], "note": "factor characterised; refutations for ratios >= 2^52"},
{"property": "C20", "status": "proved", "theorems": ["C20_mul_and_relin", "C20_mul_and_relin_hoisted"], "note": "plain and hoisted; explicit noise bound mul_noise; all key orders, levels, party sets"},
{"property": "C21", "status": "proved", "theorems": ["C21_mul_hoisted", "C21_rotate_hoisted"], "note": "equality of results including panics"},
{"property": "C22", "status": "proved", "theorems": ["C22_rotate"], "note": "explicit noise bound"},
{"property": "C23", "status": "proved", "theorems": ["C23_rotate_new", "C23_default", "C23_hoisted", "C23_missing_key"], "note": "chain of rotations by induction; slots via C25"},
{"property": "C24", "status": "proved", "theorems": ["C24_conjugate", "C24_conjugate_new", "C24_conjugate_refuted"], "note": "at the top level; below it the call panics (refutation); C24_conjugate_new is mkckks ConjugateNew"},
{"property": "C25", "status": "proved", "theorems": ["C25_ckks_rotate", "C25_ckks_conjugate", "C25_bfv_rotate", "C25_bfv_conjugate", "C25_period", "C25_small_slots", "C25_slots_determine", "C25_encoding_exists"], "note": "slots as values at roots of X^N+1, for CKKS over the complex numbers and for BFV modulo t"},
{"property": "C26", "status": "proved", "theorems": ["C26_rescale", "C26_count", "C26_panics", "C26_errors"], "note": "rescaling with exact error term"},
{"property": "C27", "status": "proved", "theorems": ["C27_rescale_new", "C27_refuted"], "note": "restated; the no-division case is refuted"},
{"property": "C28", "status": "proved", "theorems": ["C28_drop_level", "C28_drop_level_new", "C28_too_many", "C28_argument_unchanged"], "note": "values and heap aliasing"},
{"property": "C29", "status": "proved", "theorems": ["C29_integer", "C29_fraction", "C29_other_type_refuted", "C29_complex_refuted", "C29_complex_effect", "C29_complex_fraction", "C29_complex_never"], "note": "restated for real constants; complex and unsupported types refuted"},
{"property": "C30", "status": "proved", "theorems": ["C30_mul_plaintext", "C30_level0"], "note": "with the rescaling MulPtxtNew performs"},
{"property": "C31", "status": "proved", "theorems": ["C31_no_memory", "C31_any_buffers", "C31_histories_agree", "C31_mul_relin", "C31_rotate", "C31_conjugate"], "note": "Every buffer is state of the model (KsPool.v, EvalPool.v); history is an inductive predicate over all calls; a recovered panic leaves any contents. The bridges say that the pooled operations compute what the local-buffer model of C20-C24, C44 computes."},
{"property": "C32", "status": "proved", "theorems": ["C32_disjoint_parties", "C32_buffers_stable", "C32_sequential", "C32_interleaved_refuted"], "note": "Interleaving model of any number of calls, steps per decomposed/read buffer (ShareModel.v). Disjoint parties: any schedule, every ended call returned its own product and enough steps end it; non-overlapping calls: same with shared parties. The unrestricted claim is refuted by a schedule on a concrete instance: call 1 squares an encryption of 0 and returns an encryption of the other call's 10*10."},
{"property": "C33", "status": "proved", "theorems": ["C33_convolution", "C33_fc1", "C33_fc1_empty", "C33_fc2"], "note": "Slots are the real evaluations of C25 (Slots.v); the encoder is not modelled, so the theorem speaks about the slots of the decrypted integer polynomial before division by the scale."},
{"property": "C34", "status": "proved", "theorems": ["C34_bit_reverse_permutes", "C34_bit_reverse_involutive", "C34_other_sizes_diverge"], "note": "for sizes that are not powers of two the Go loop never terminates (proved)"},
{"property": "C35", "status": "proved", "theorems": ["C35_generate", "C35_nonnegative", "C35_negative_refuted"], "note": "exact condition for success; the naive expectation refuted for negative indices"},
{"property": "C36", "status": "proved", "theorems": ["C36_public_key_and_relinearisation_key_refuted", "C36_relinearisation_key_and_rotation_key_zero_refuted"], "note": "two explicit key-recovery computations proved to return the secret"},
{"property": "C37", "status": "proved", "theorems": ["C37_key_pair", "C37_sparse_refuted"], "note": "GenKeyPair correct, GenKeyPairSparse always panics"},
{"property": "C38", "status": "proved", "theorems": ["C38_scale_up", "C38_scale_up_refuted", "C38_scale_up_vec", "C38_scale_up_vec_all", "C38_scale_up_vec_refuted", "C38_scale_up_big", "C38_scale_up_big_int", "C38_scale_up_big_refuted", "C38_interface_mod", "C38_interface_mod_refuted", "C38_chain", "C38_rescaling_params"], "note": "scaleUpExact, scaleUpVecExact, scaleUpVecExactBigFloat, interfaceMod, genBigIntChain, GenSwitchkeysRescalingParams for all arguments; the unconditional expectations (nearest integer, canonical residue) are refuted by concrete arguments"},
{"property": "C39", "status": "proved", "theorems": ["C39_modup", "C39_rescale", "C39_quantize", "C39_lengths", "C39_short", "C39_nonvacuous"], "note": "BFV base conversions on whole polynomials, all parameter chains"},
{"property": "C40", "status": "proved", "theorems": ["C40_mul", "C40_hoisting_agrees", "C40_product", "C40_rounds", "C40_decrypts", "C40_keygen", "C40_keygen_uneven_blocks_refuted", "C40_missing_key", "C40_nonvacuous"], "note": "noise bounds explicit (bfv_mul_noise, bfv_prod_noise); keys as produced by the modelled GenRelinearizationKey; C40_nonvacuous meets every hypothesis, the noise bound included, at N=8 with 20-bit primes and three parties"},
{"property": "C41", "status": "proved", "theorems": ["C41_output_domain", "C41_output_domain_refuted"], "note": "proved for equal flags; the statement for unequal flags is refuted by a concrete ciphertext"},
{"property": "C42", "status": "proved", "theorems": ["C42_reserved", "C42_other_ids", "C42_encrypt_refuted"], "note": "EncryptMsgNew panics on id 0; other ids give a ciphertext over {0,id} that decrypts to the message; Encrypt itself does not check (refuted)"},
{"property": "C43", "status": "proved", "theorems": ["C43_other_indices", "C43_recreated", "C43_recreated_refuted"], "note": "AddCRS on other indices changes nothing; re-creating an index silently changes rotations with old keys (general formula + concrete refutation)"},
{"property": "C44", "status": "proved", "theorems": ["C44_mul_relin_hoisted_new", "C44_mul_relin_new", "C44_missing_key"], "note": "product, relinearisation and rescaling composed"},
{"property": "C45", "status": "proved", "theorems": ["C45_add", "C45_sub", "C45_decrypt"], "note": ""},
{"property": "C46", "status": "proved", "theorems": ["C46_rotate_new", "C46_rotate_slots", "C46_rotate_missing_key", "C46_conjugate_new", "C46_conjugate_missing_key"], "note": "slot meaning from C25"},
{"property": "C47", "status": "proved", "theorems": ["C47_program", "C47_decrypts", "C47_fresh", "C47_end_to_end", "C47_nonvacuous"], "note": "Any program, from key generation and encryption to decryption; explicit noise function bnoise_run. The bfv encoder is represented by its contract."},
{"property": "C48", "status": "proved", "theorems": ["C48_program", "C48_decrypts", "C48_fresh", "C48_end_to_end", "C48_scale_drift", "C48_equal_scales", "C48_nonvacuous"], "note": "Any program, from key generation and encryption to decryption, with an explicit error bound on the slots. The ckks encoder is represented by its contract; StandardDeviation-type average-case estimates are not claimed."},
{"property": "C49", "status": "proved", "theorems": ["C49_no_memory", "C49_any_buffers", "C49_histories_agree", "C49_mul_relin", "C49_rotate", "C49_conjugate", "C49_keyswitcher", "C49_nonvacuous"], "note": "Every buffer of the BFV evaluator, key switcher, base converter and key set is state of the model. Hypotheses: well-formed BFV parameters, alpha | #Q (otherwise key generation panics), operands of a product with one row per modulus; nothing about buffer contents."},
{"property": "C50", "status": "proved", "theorems": ["C50_bfv15_wf", "C50_bfv14_wf", "C50_ckks_wf", "C50_bfv15_program", "C50_bfv14_program", "C50_bfv15_default", "C50_bfv14_default", "C50_count", "C50_enough", "C50_bfv15_squarings", "C50_bfv14_squarings", "C50_nonvacuous15", "C50_nonvacuous_prog"], "note": "Moduli with Pocklington certificates (Shipped.v, generated from the Go test files). Worst-case noise bounds of C47 evaluated at the sets; the cost model is stated in PropsShipped.v (bcost). The encoder's rounding and the samplers' ranges are hypotheses of the input records (met by every message: rounding_encoded, C50_nonvacuous15)."},
{"property": "C51", "status": "proved", "theorems": ["C51_key_generator_has_no_memory", "C51_key_is_function_of_its_samples", "C51_key_sequence", "C51_samples_are_used_once", "C51_encryptor_has_no_memory", "C51_reused_ciphertext_phase", "C51_reused_ciphertext_refuted", "C51_encryptor_states"], "note": "GenPool.v models the generator and the encryptor with their pools and the position of their samplers (a sampler is a stream of rows). Sequences of calls: C51_key_sequence gives the position where each key's samples start, C51_samples_are_used_once that these ranges are disjoint. The ternary samplers of GenSecretKey and the uniform samplers are separate streams given as arguments."},
{"property": "C52", "status": "proved", "theorems": ["C52_rule", "C52_ckks15", "C52_ckks14", "C52_cnn14", "C52_nonvacuous", "C52_nonvacuous_prog"], "note": "The rule (kcost, kokb, CkksBudget.v) is a small separate specification; C52_rule derives it from C48 for every parameter set meeting knumbers, the other theorems check the numbers of the three shipped sets. The ckks encoder enters by its contract (slots within eps of the message); C52_nonvacuous shows keys, evaluator state and, for every message, an encoding meeting the hypotheses."},
{"property": "C53", "status": "proved", "theorems": ["C53_roots_exist", "C53_rlwe", "C53_bfv_accepts", "C53_bfv_wf", "C53_ckks_wf", "C53_common_prime_refuted", "C53_odd_special_primes_refuted", "C53_shipped", "C53_unchecked_examples"], "note": "C53_bfv_accepts: acceptance decided exactly, result explicit; C53_bfv_wf and C53_ckks_wf: the hypotheses wfb and wfp of the other theorems from conditions on the literal; C53_roots_exist: the root contract of the library is satisfiable (primitive roots); the _refuted theorems: shared primes and odd numbers of special primes; C53_shipped, C53_unchecked_examples: instances. lattigo's NewRing and rlwe.NewParametersFromLiteral by contract."},
{"property": "C54", "status": "proved", "theorems": ["C54_exclusive", "C54_interference", "C54_interference_both", "C54_wrong_product"], "note": "C54_exclusive: any interleaving in which no other call touches the key set between the first and the last step of the call. C54_interference, C54_interference_both: for every two calls on one key set the schedule that mixes their operands. C54_wrong_product: a concrete alice/bob instance (all hypotheses met, N = 8) whose result decrypts to the wrong product."},
{"property": "C55", "status": "proved", "theorems": ["C55_values", "C55_untouched", "C55_no_sharing", "C55_write", "C55_example"], "note": "Model on a heap of polynomial objects (HeapEval.v), compared with the value model by a simulation with a separation invariant; any parameters, any program, any iteration orders. Keys, digits and the KeySwitcher's scratch polynomials are values (no ciphertext refers to them)."},
{"property": "C56", "status": "proved", "theorems": ["C56_values", "C56_untouched", "C56_no_sharing", "C56_write", "C56_example"], "note": "Model on a heap of polynomial objects (HeapBfv.v), compared with the value model by a simulation with a separation invariant; any parameters, any program, any iteration orders. Lifted operands, keys, digits and scratch buffers are values (C49, C54 treat their reuse)."},
{"property": "C57", "status": "proved", "theorems": ["C57_hoisting", "C57_end_to_end", "C57_rule", "C57_nonvacuous"], "note": "C57_hoisting: ciphertext equality with the program without hoisting; C57_end_to_end, C57_rule: from key generation and encryption, decrypted slots within the bounds of C48 and of the rule of C52."},
{"property": "C58", "status": "proved", "theorems": ["C58_rule", "C58_worst", "C58_monotone", "C58_calculator", "C58_nonvacuous"], "note": "C58_rule: by induction over the program with client bounds of the exact values. C58_worst, C58_monotone: relation to the rule of C52. C58_calculator: the executable fixed-point calculator (CkksCalc.v) is sound for the rule. C58_nonvacuous: an instance."},
{"property": "C59", "status": "proved", "theorems": ["C59_inference", "cnn_slots", "inference_prog", "C59_cnn14", "C59_cnn15", "C59_nonvacuous", "C59_nonvacuous_calc", "C59_nonvacuous_decides"], "note": "C59_inference: the whole session (setup, encryption, evaluation of cnn.go, decryption, decision) for every parameter set meeting knumbers; C59_cnn14, C59_cnn15 instantiate the two shipped sets. cnn_slots: on plain slots the program is the plain network; inference_prog: the modelled cnn.go functions are that program. Encode/decode floats are hypotheses (eps, delta). For PN14QP433 the guaranteed error is loose."},
{"property": "C60", "status": "proved", "theorems": ["C60_value", "C60_same", "C60_nonvacuous"], "note": "C60_value: result for every integer polynomial; C60_same: equality with ModDownQPtoQ between transforms. lattigo's InvNTTLazy / NTTLazy are arbitrary functions meeting a stated contract (words below 2q congruent to the transform). Aliasing p2Q = p1Q: each output word depends on the same input word only (comment at the model)."},
{"property": "C61", "status": "proved", "theorems": ["C61_program", "C61_end_to_end", "C61_nonvacuous"], "note": "Any program over the whole interface, on the heap model; combines C55 with slot-level error bounds for every call."},
{"property": "C62", "status": "proved", "theorems": ["C62_end_to_end", "C62_bfv15", "C62_bfv14", "C62_too_long", "C62_nonvacuous15", "C62_example"], "note": "C62_end_to_end is the general statement on the heap model; C62_bfv15 and C62_bfv14 the shipped sets, C62_nonvacuous15 and C62_example show the hypotheses met (the example ends in eight concrete integers). lattigo's bfv.Encoder is modelled by contract (BfvMsg.v)."},
{"property": "C63", "status": "proved", "theorems": ["C63_rule", "C63_ckks15", "C63_ckks14", "C63_cnn14", "C63_nonvacuous"], "note": "CkksFullRule.v: the rule grule (specification) and the proof that it dominates the bounds of C61; C63_rule for every parameter set with the stated numbers, then the three shipped sets; C63_nonvacuous: a program with in-place calls and the numbers the rule gives. Not covered by the rule: sums or products of ciphertexts waiting for a Rescale, DropLevel on them, MultByConst by constants with an imaginary part (C29 says what those do), Rescale with another scale than the default (C61 covers it with explicit bounds)."},
{"property": "C64", "status": "proved", "theorems": ["C64_concurrent_calls", "C64_shallow_copy", "C64_shared_extender_mixes", "C64_shared_extender_wrong", "C64_panics"], "note": "Word-level interleavings (every read and write of a 64-bit word is a step); the positive theorem covers any number of calls; the negative part holds for every pair of ready calls of equal levels."},
{"property": "C65", "status": "proved", "theorems": ["C65_keys_are_values", "C65_copy_is_independent", "C65_sets_hold_references"], "note": "Heap of polynomials, key objects and key sets; refinement to value semantics for all histories, with the direct statement for copies and for sets."},
{"property": "C66", "status": "proved", "theorems": ["C66_sd", "C66_single", "C66_empty", "C66_constant", "C66_overflow", "C66_scaleDown"], "note": "Float64 model with Flocq (round to nearest even for every operation, no fused multiply-add); sd is specified over the reals."},
{"property": "C67", "status": "proved", "theorems": ["C67_ckks15", "C67_ckks14", "C67_squarings", "C67_nonvacuous"], "note": "Instance of the precision rule of C52, whose numbers are shown to double with every level for product circuits; the third set (cnn14) is treated by C59 and C52 only."},
{"property": "C68", "status": "proved", "theorems": ["C68_exclusive", "C68_own_objects", "C68_other_message", "C68_same_mask", "C68_mask_reuse_leaks", "C68_decrypts_other", "C68_wrong_scale", "C68_panic", "C68_bfv_other", "C68_shared_refuted"], "note": "positive part C68_exclusive and C68_own_objects; the remaining theorems construct the harmful schedules of a shared object (refuted expectation)"},
{"property": "C69", "status": "proved", "theorems": ["C69_exclusive", "C69_own_evaluators", "C69_bfv", "C69_returns_other", "C69_wrong_rotation"], "note": "Undisturbed calls of RotateNew, RotateHoistedNew and ConjugateNew on every schedule, for mkckks and mkbfv; the exchange of two results on a shared Evaluator is proved for RotateNew of mkckks. MulRelinNew on a shared mkbfv relinearization key set is C54."},
{"property": "C70", "status": "proved", "theorems": ["C70_exclusive", "C70_own_evaluators", "C70_other_plaintext", "C70_wrong_plaintext", "C70_shared_key_set"], "note": "AddNew, SubNew, MulPtxtNew, MulRelinNew, MulRelinHoistedNew, RotateNew, RotateHoistedNew and ConjugateNew as processes with one step per operation on a shared buffer (KeySwitcher, Evaluator pools, HoistPool of the key set); any number of goroutines, Evaluators and schedules. Refutations: MulPtxtNew on one Evaluator, and MulRelinNew on two Evaluators with one RelinearizationKeySet."},
{"property": "C71", "status": "proved", "theorems": ["C71_external_product", "C71_keygen", "C71_keygen_panics", "C71_generated"], "note": "GenBFVSwitchingKey, DecomposeBFV and ExternalProductBFV at the full level (mkbfv uses no other); the hoisted form is the second half of the same model function."},
{"property": "C72", "status": "proved", "theorems": ["C72_sum", "C72_any_order", "C72_bfv", "C72_fresh_reduced", "C72_difference_refuted", "C72_nonvacuous"], "note": "sumTree and bSumTree call the modelled AddNew of each package; C72_fresh_reduced shows Encrypt's results meet the hypothesis. C72_difference_refuted is the refuted counterpart for SubNew."},
{"property": "C73", "status": "proved", "theorems": ["C73_mul", "C73_mul_missing", "C73_bfv_mul", "C73_bfv_mul_missing", "C73_rotate", "C73_rotate_missing", "C73_conjugate", "C73_conjugate_missing", "C73_nonvacuous"], "note": "two-run comparison of all evaluation calls for two key sets, and panics for missing keys"},
{"property": "C74", "status": "proved", "theorems": ["C74_rotate", "C74_conjugate", "C74_bfv_rotate_conjugate", "C74_mul", "C74_mul_hoisted", "C74_bfv_mul", "C74_add_sub", "C74_mul_ptxt", "C74_mult_by_const", "C74_drop_level", "C74_rescale", "C74_bfv_add_sub", "C74_program", "C74_session", "C74_bfv_program", "C74_bfv_session", "C74_nonvacuous", "C74_bfv_mul_nonvacuous", "C74_linear_nonvacuous", "C74_session_nonvacuous", "C74_bfv_session_nonvacuous", "C74_decrypt", "C74_ckks_decrypt", "C74_bfv_decrypt", "C74_decrypt_nonvacuous", "C74_end_to_end", "C74_bfv_end_to_end", "C74_end_to_end_nonvacuous"], "note": "Two runs of a call with two arbitrary families of iteration orders (one order per loop of the model) are related. The results are equal as maps, with equal polynomials: the words, the domain flag and the number of rows. For multiplication the operands are well formed, the CRS entries 0 and -1 are there and the relinearisation keys are ones GenRelinearizationKey made (for mkbfv also: the number of digits' primes alpha divides the number of Q primes, as in C40); for rotations and conjugations the keys are arbitrary (also missing or malformed: then both calls panic). The operations without keys (C74_add_sub, C74_mul_ptxt, C74_mult_by_const, C74_drop_level, C74_rescale, C74_bfv_add_sub) are for arbitrary ciphertexts whose maps have distinct identities, also ill-formed ones on which the calls panic; the evaluators of the two runs have the same buffers, and have the same buffers afterwards. The sums of C72 are deterministic by C72. C74_program, C74_session, C74_bfv_program and C74_bfv_session are about the client programs of C48 and C47 (with their hypotheses: well-formed inputs or valid messages, generated keys, calls of the operations these programs are made of); the sessions include EncryptMsgNew/EncryptNew on the same sampled noise, with different iteration orders. C74_decrypt, C74_ckks_decrypt and C74_bfv_decrypt: well-formed ciphertexts and generated secret keys, two enumerations of the same ciphertext and of the same key map; for mkbfv any subset of the keys; up to the polynomial handed to the encoder. C74_end_to_end and C74_bfv_end_to_end compose encryption, program and decryption."},
{"property": "C75", "status": "proved", "theorems": ["C75_value", "C75_any_order", "C75_complete", "C75_twice", "C75_stranger", "C75_nonvacuous"], "note": "partialAll folds PartialDecrypt over a list of secret keys; contributors: distinct identities, all parties of the ciphertext, keys holding the secrets s id. C75_any_order also covers two enumerations of the same ciphertext. C75_complete is for ciphertexts with at least one party (without a party Decrypt reduces component \"0\", whose coefficients may be equal to the modulus). C75_twice and C75_stranger need no well-formedness at all."}
]
