# Print Assumptions of every theorem of MANIFEST.json

Generated by tools/assumptions.py.  Only axioms of the Coq standard library occur.

## Closed under the global context (no axiom)

`C01_idset_is_a_finite_set`, `C01_add_reserved_panics`, `C02_key_set_returns_last_key`, `C02_relin_key_set_returns_last_key`, `C02_relin_key_set_has_buffers`, `C02_rotation_key_set_returns_last_key`, `C03_new_ciphertext`, `C03_new_ciphertext_ntt`, `C03_id_set`, `C03_copy_new`, `C03_copy`, `C03_pad`, `C04_amounts`, `C06_mred`, `C06_mform`, `C06_bred`, `C06_cred`, `C06_modexp`, `C06_multsum`, `C07_qoverqiinvqi`, `C07_qoverqimodp`, `C07_vtimesqmodp`, `C07_moddown_constant`, `C13_secret_key`, `C15_value`, `C15_missing_key`, `C15_order_and_irrelevant_keys`, `C15_partial_commute`, `C15_arguments_unchanged`, `C16_decrypt`, `C16_partial_sum`, `C16_missing_key_refuted`, `C17_history`, `C17_same_as_fresh`, `C17_decoded_unique`, `C17_small_message`, `C17_same_message_refuted`, `C25_bfv_rotate`, `C25_bfv_conjugate`, `C25_period`, `C28_drop_level`, `C28_drop_level_new`, `C28_too_many`, `C28_argument_unchanged`, `C33_fc1_empty`, `C34_bit_reverse_permutes`, `C34_bit_reverse_involutive`, `C34_other_sizes_diverge`, `C37_sparse_refuted`, `C38_interface_mod`, `C38_interface_mod_refuted`, `C38_chain`, `C38_rescaling_params`, `C39_lengths`, `C40_rounds`, `C41_output_domain`, `C41_output_domain_refuted`, `C42_reserved`, `C42_encrypt_refuted`, `C45_add`, `C45_sub`, `C45_decrypt`, `C46_rotate_slots`, `C50_bfv15_wf`, `C50_bfv14_wf`, `C50_ckks_wf`, `C50_count`, `C50_enough`, `C50_nonvacuous_prog`, `C51_encryptor_has_no_memory`, `C51_reused_ciphertext_phase`, `C51_reused_ciphertext_refuted`, `C51_encryptor_states`, `C53_roots_exist`, `C53_shipped`, `C59_nonvacuous_calc`, `C60_nonvacuous`, `C62_too_long`, `C64_shallow_copy`, `C65_keys_are_values`, `C65_copy_is_independent`, `C65_sets_hold_references`, `C68_exclusive`, `C68_own_objects`, `C68_other_message`, `C68_same_mask`, `C68_mask_reuse_leaks`, `C68_decrypts_other`, `C68_wrong_scale`, `C68_panic`, `C68_bfv_other`, `C72_bfv`, `C72_fresh_reduced`, `C74_drop_level`, `C74_bfv_add_sub`, `C74_decrypt`, `C74_ckks_decrypt`, `C74_bfv_decrypt`, `C74_decrypt_nonvacuous`, `C75_value`, `C75_any_order`, `C75_complete`, `C75_twice`, `C75_stranger`, `C75_nonvacuous`

## `ClassicalDedekindReals.sig_forall_dec`, `ClassicalDedekindReals.sig_not_dec`, `Classical_Prop.classic`, `FunctionalExtensionality.functional_extensionality_dep`

`C04_crs_indices`, `C04_default_keys`, `C05_beta_is_the_ceiling`, `C05_blocks_partition_the_moduli`, `C08_modup_one_integer`, `C08_exact_refuted`, `C09_moddown_floor`, `C09_rounding_refuted`, `C10_moddownP_equal_levels`, `C10_moddownP_refuted`, `C10_moddownP_panics`, `C11_digit`, `C11_decompose`, `C11_gamma_must_divide`, `C12_external_product_any_key`, `C12_external_product`, `C12_ntt_input`, `C13_public_key`, `C13_relinearisation_key`, `C13_rotation_key`, `C13_conjugation_key`, `C13_crs_entries`, `C14_fresh`, `C14_ternary`, `C18_add`, `C18_sub`, `C18_decrypt`, `C19_add`, `C19_sub`, `C19_factor`, `C19_odd_ratio_refuted`, `C19_huge_ratio_refuted`, `C20_mul_and_relin`, `C20_mul_and_relin_hoisted`, `C21_mul_hoisted`, `C21_rotate_hoisted`, `C22_rotate`, `C23_rotate_new`, `C23_default`, `C23_hoisted`, `C23_missing_key`, `C24_conjugate`, `C24_conjugate_new`, `C24_conjugate_refuted`, `C26_rescale`, `C26_count`, `C26_panics`, `C26_errors`, `C27_rescale_new`, `C27_refuted`, `C29_integer`, `C29_fraction`, `C29_other_type_refuted`, `C29_complex_refuted`, `C29_complex_effect`, `C29_complex_fraction`, `C29_complex_never`, `C30_mul_plaintext`, `C30_level0`, `C31_no_memory`, `C31_any_buffers`, `C31_histories_agree`, `C31_mul_relin`, `C31_rotate`, `C31_conjugate`, `C32_disjoint_parties`, `C32_buffers_stable`, `C32_sequential`, `C32_interleaved_refuted`, `C33_convolution`, `C33_fc1`, `C33_fc2`, `C35_generate`, `C35_nonnegative`, `C35_negative_refuted`, `C36_public_key_and_relinearisation_key_refuted`, `C36_relinearisation_key_and_rotation_key_zero_refuted`, `C37_key_pair`, `C38_scale_up`, `C38_scale_up_refuted`, `C38_scale_up_vec`, `C38_scale_up_vec_all`, `C38_scale_up_vec_refuted`, `C38_scale_up_big`, `C38_scale_up_big_int`, `C38_scale_up_big_refuted`, `C39_modup`, `C39_rescale`, `C39_quantize`, `C39_short`, `C39_nonvacuous`, `C40_mul`, `C40_hoisting_agrees`, `C40_product`, `C40_decrypts`, `C40_keygen`, `C40_keygen_uneven_blocks_refuted`, `C40_missing_key`, `C40_nonvacuous`, `C42_other_ids`, `C43_other_indices`, `C43_recreated`, `C43_recreated_refuted`, `C44_mul_relin_hoisted_new`, `C44_mul_relin_new`, `C44_missing_key`, `C46_rotate_new`, `C46_rotate_missing_key`, `C46_conjugate_new`, `C46_conjugate_missing_key`, `C47_program`, `C47_decrypts`, `C47_fresh`, `C47_end_to_end`, `C47_nonvacuous`, `C48_program`, `C48_decrypts`, `C48_fresh`, `C48_end_to_end`, `C48_scale_drift`, `C48_equal_scales`, `C48_nonvacuous`, `C49_no_memory`, `C49_any_buffers`, `C49_histories_agree`, `C49_mul_relin`, `C49_rotate`, `C49_conjugate`, `C49_keyswitcher`, `C49_nonvacuous`, `C50_bfv15_program`, `C50_bfv14_program`, `C50_bfv15_default`, `C50_bfv14_default`, `C50_bfv15_squarings`, `C50_bfv14_squarings`, `C50_nonvacuous15`, `C51_key_generator_has_no_memory`, `C51_key_is_function_of_its_samples`, `C51_key_sequence`, `C51_samples_are_used_once`, `C52_rule`, `C52_ckks15`, `C52_ckks14`, `C52_cnn14`, `C52_nonvacuous`, `C53_rlwe`, `C53_bfv_accepts`, `C53_bfv_wf`, `C53_ckks_wf`, `C53_common_prime_refuted`, `C53_odd_special_primes_refuted`, `C53_unchecked_examples`, `C54_exclusive`, `C54_interference`, `C54_interference_both`, `C54_wrong_product`, `C55_values`, `C55_untouched`, `C55_no_sharing`, `C55_write`, `C55_example`, `C56_values`, `C56_untouched`, `C56_no_sharing`, `C56_write`, `C56_example`, `C57_hoisting`, `C57_end_to_end`, `C57_rule`, `C57_nonvacuous`, `C58_rule`, `C58_calculator`, `C59_inference`, `inference_prog`, `C59_cnn14`, `C59_cnn15`, `C59_nonvacuous`, `C60_value`, `C60_same`, `C61_program`, `C61_end_to_end`, `C61_nonvacuous`, `C62_end_to_end`, `C62_bfv15`, `C62_bfv14`, `C62_nonvacuous15`, `C62_example`, `C63_rule`, `C63_ckks15`, `C63_ckks14`, `C63_cnn14`, `C63_nonvacuous`, `C64_concurrent_calls`, `C64_shared_extender_mixes`, `C64_shared_extender_wrong`, `C64_panics`, `C66_sd`, `C66_single`, `C66_empty`, `C66_constant`, `C66_overflow`, `C66_scaleDown`, `C67_ckks15`, `C67_ckks14`, `C67_squarings`, `C67_nonvacuous`, `C68_shared_refuted`, `C69_exclusive`, `C69_own_evaluators`, `C69_bfv`, `C69_returns_other`, `C69_wrong_rotation`, `C70_exclusive`, `C70_own_evaluators`, `C70_other_plaintext`, `C70_wrong_plaintext`, `C70_shared_key_set`, `C71_external_product`, `C71_keygen`, `C71_keygen_panics`, `C71_generated`, `C72_sum`, `C72_any_order`, `C72_difference_refuted`, `C72_nonvacuous`, `C73_mul`, `C73_mul_missing`, `C73_bfv_mul`, `C73_bfv_mul_missing`, `C73_rotate`, `C73_rotate_missing`, `C73_conjugate`, `C73_conjugate_missing`, `C73_nonvacuous`, `C74_rotate`, `C74_conjugate`, `C74_bfv_rotate_conjugate`, `C74_mul`, `C74_mul_hoisted`, `C74_bfv_mul`, `C74_add_sub`, `C74_mul_ptxt`, `C74_mult_by_const`, `C74_rescale`, `C74_nonvacuous`, `C74_bfv_mul_nonvacuous`, `C74_linear_nonvacuous`, `C74_program`, `C74_session`, `C74_session_nonvacuous`, `C74_bfv_program`, `C74_bfv_session`, `C74_bfv_session_nonvacuous`, `C74_end_to_end`, `C74_bfv_end_to_end`, `C74_end_to_end_nonvacuous`

## `ClassicalDedekindReals.sig_forall_dec`, `ClassicalDedekindReals.sig_not_dec`, `FunctionalExtensionality.functional_extensionality_dep`

`C25_ckks_rotate`, `C25_ckks_conjugate`, `C25_small_slots`, `C25_slots_determine`, `C25_encoding_exists`, `C58_worst`, `C58_nonvacuous`, `C59_nonvacuous_decides`

## `ClassicalDedekindReals.sig_forall_dec`, `FunctionalExtensionality.functional_extensionality_dep`

`C52_nonvacuous_prog`, `C58_monotone`, `cnn_slots`
