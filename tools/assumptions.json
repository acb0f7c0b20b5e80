{
"C01_args": [],
"C01_refuted_far_modes": [],
"C01_standard_order": [],
"C02_compose": [],
"C02_permutation": [],
"C02_refuted_classical": [],
"C03_contraction_labels": [],
"C03_refuted_classical": [],
"C04_assoc": [],
"C04_assoc_defined": [],
"C04_refuted": [],
"C05_adjoint_wires": [],
"C05_component_adjoint": [],
"C05_component_adjoint_involution": [],
"C05_component_dual": [],
"C05_dual_wires": [],
"C05_involutions_commute": [],
"C06_overlap_rejected": [],
"C06_refuted_other_repr": [],
"C06_refuted_stale_hash": [],
"C06_refuted_stale_hash_dual": [],
"C07_contract": [],
"C08_direct": [],
"C08_other_twice": [],
"C08_plan": [],
"C08_refuses": [],
"C08_self_twice": [],
"C09_any_adjacent_path": [],
"C09_refuted_scalar": [],
"C09_refuted_skipping_path": [],
"C09_wrong_length": [],
"C10_optimal": [],
"C10_refuted_crash": [],
"C10_refuted_skipping_path": [],
"C10_solution": [],
"C10_terminates": [],
"C11_fock_shapes": [],
"C12_heuristic": [],
"C12_reduce_first": [],
"C12_refuted_never_fires": [],
"C13_from_ansatz": [],
"C13_from_bargmann": [],
"C13_from_fock_actual": [],
"C13_from_fock_same_modes": [],
"C13_refuted_from_fock": [],
"C13_unsorted": [],
"C14_actual": [],
"C14_labelled_0_to_n": [],
"C14_refuted_index": [],
"C14_refuted_input_changed": [],
"C14_refuted_wrong_mode": [
"ClassicalDedekindReals.sig_forall_dec",
"ClassicalDedekindReals.sig_not_dec",
"Classical_Prop.classic",
"FunctionalExtensionality.functional_extensionality_dep"
],
"C15_getitem": [],
"C15_getitem_error": [],
"C15_probability": [],
"C15_refuted_keep_all": [],
"C15_refuted_set_order": [],
"C15_trace_out_same_order": [],
"C15_two_steps": [],
"C15_unique": [],
"C16_general": [],
"C16_ket": [],
"C16_refuted_separable": [],
"C16_separable_actual": [],
"C16_separable_one_mode": [],
"C17_actual": [
"ClassicalDedekindReals.sig_forall_dec",
"ClassicalDedekindReals.sig_not_dec",
"FunctionalExtensionality.functional_extensionality_dep"
],
"C17_cxgate_rejects": [],
"C17_increasing": [
"ClassicalDedekindReals.sig_forall_dec",
"ClassicalDedekindReals.sig_not_dec",
"FunctionalExtensionality.functional_extensionality_dep"
],
"C17_refuted": [
"ClassicalDedekindReals.sig_forall_dec",
"ClassicalDedekindReals.sig_not_dec",
"FunctionalExtensionality.functional_extensionality_dep"
],
"C18_default": [],
"C18_refuted": [],
"C19_recurrence": [],
"C19_taylor": [],
"C20_batch": [],
"C20_stable": [],
"C21_complex": [
"ClassicalDedekindReals.sig_forall_dec",
"ClassicalDedekindReals.sig_not_dec",
"FunctionalExtensionality.functional_extensionality_dep"
],
"C21_vjp": [],
"C22_cutoff": [],
"C23_bounds": [
"ClassicalDedekindReals.sig_forall_dec",
"ClassicalDedekindReals.sig_not_dec",
"FunctionalExtensionality.functional_extensionality_dep"
],
"C23_centred": [
"ClassicalDedekindReals.sig_forall_dec",
"ClassicalDedekindReals.sig_not_dec",
"FunctionalExtensionality.functional_extensionality_dep"
],
"C23_example": [
"ClassicalDedekindReals.sig_forall_dec",
"ClassicalDedekindReals.sig_not_dec",
"FunctionalExtensionality.functional_extensionality_dep"
],
"C23_first": [
"ClassicalDedekindReals.sig_forall_dec",
"ClassicalDedekindReals.sig_not_dec",
"FunctionalExtensionality.functional_extensionality_dep"
],
"C23_probability": [
"ClassicalDedekindReals.sig_forall_dec",
"ClassicalDedekindReals.sig_not_dec",
"FunctionalExtensionality.functional_extensionality_dep"
],
"C23_real": [
"ClassicalDedekindReals.sig_forall_dec",
"ClassicalDedekindReals.sig_not_dec",
"FunctionalExtensionality.functional_extensionality_dep"
],
"C23_refuted": [
"ClassicalDedekindReals.sig_forall_dec",
"ClassicalDedekindReals.sig_not_dec",
"FunctionalExtensionality.functional_extensionality_dep"
],
"C23_upper": [
"ClassicalDedekindReals.sig_forall_dec",
"ClassicalDedekindReals.sig_not_dec",
"FunctionalExtensionality.functional_extensionality_dep"
],
"C24_by_weight": [],
"C24_default_fills": [],
"C24_dict": [],
"C24_dict_default_refuted": [],
"C24_early_stop_agrees": [],
"C24_enumeration": [],
"C24_example": [
"ClassicalDedekindReals.sig_forall_dec",
"ClassicalDedekindReals.sig_not_dec",
"FunctionalExtensionality.functional_extensionality_dep"
],
"C24_numba_default_refuted": [],
"C24_schedule_free": [],
"C24_top_nonzero": [],
"C25_beamsplitter": [],
"C25_conservation": [],
"C25_eig_exists": [
"ClassicalDedekindReals.sig_forall_dec",
"ClassicalDedekindReals.sig_not_dec",
"Classical_Prop.classic",
"FunctionalExtensionality.functional_extensionality_dep"
],
"C25_example": [],
"C25_refuted_example": [],
"C25_refuted_wide_input": [],
"C25_refuted_wide_input_value": [],
"C25_schwinger": [
"ClassicalDedekindReals.sig_forall_dec",
"ClassicalDedekindReals.sig_not_dec",
"Classical_Prop.classic",
"FunctionalExtensionality.functional_extensionality_dep"
],
"C25_schwinger_refuted_error": [],
"C25_schwinger_refuted_missing": [],
"C25_schwinger_square": [],
"C25_sector_idx": [],
"C25_sector_refuted": [],
"C25_stable": [],
"C26_correct": [],
"C26_example": [
"ClassicalDedekindReals.sig_forall_dec",
"ClassicalDedekindReals.sig_not_dec",
"FunctionalExtensionality.functional_extensionality_dep"
],
"C26_refuted_small_cutoff": [],
"C26_weights": [],
"C27_corner": [],
"C27_displacement": [],
"C27_displacement_complex": [
"ClassicalDedekindReals.sig_forall_dec",
"ClassicalDedekindReals.sig_not_dec",
"FunctionalExtensionality.functional_extensionality_dep"
],
"C27_displacement_zero": [
"ClassicalDedekindReals.sig_forall_dec",
"ClassicalDedekindReals.sig_not_dec",
"FunctionalExtensionality.functional_extensionality_dep"
],
"C27_example": [
"ClassicalDedekindReals.sig_forall_dec",
"ClassicalDedekindReals.sig_not_dec",
"FunctionalExtensionality.functional_extensionality_dep"
],
"C27_jacobian": [],
"C27_jacobian_complex": [
"ClassicalDedekindReals.sig_forall_dec",
"ClassicalDedekindReals.sig_not_dec",
"Classical_Prop.classic",
"FunctionalExtensionality.functional_extensionality_dep"
],
"C27_squeezed": [],
"C27_squeezer": [],
"C27_squeezer_complex": [
"ClassicalDedekindReals.sig_forall_dec",
"ClassicalDedekindReals.sig_not_dec",
"FunctionalExtensionality.functional_extensionality_dep"
],
"C28_all_neighbors": [],
"C28_all_pivots": [],
"C28_bitstring_neighbors": [],
"C28_example": [],
"C28_first_available_pivot": [],
"C28_lower_neighbors": [],
"C28_neighbors_once": [],
"C28_row_major": [],
"C28_smallest_pivot": [],
"C28_upper_neighbors": [],
"C29_argsort": [],
"C29_example": [],
"C29_integers": [],
"C29_refuted_infinity": [],
"C30_example": [],
"C30_refuted_tolerance": [],
"C30_simplify": [],
"C31_components": [],
"C31_example": [],
"C31_pairing": [],
"C31_refuted": [],
"C32_compose": [],
"C32_defined": [],
"C32_error": [],
"C32_reduce": [],
"C32_refuted_mixed": [],
"C33_example": [],
"C33_kron": [],
"C33_lin_sup": [],
"C33_refuted_no_args": [],
"C33_refuted_order": [],
"C33_reshape": [],
"C33_zip": [],
"C34_backend": [],
"C34_cleanup": [],
"C34_example": [],
"C34_history": [],
"C34_modes_sorted": [],
"C34_refuted_backend_key": [],
"C34_refuted_converted": [],
"C34_refuted_empty": [],
"C34_refuted_same_name": [],
"C34_refuted_superposition": [],
"C34_refuted_trainable": [],
"C34_roundtrip": [],
"C34_saves": [],
"C35_duplicate": [],
"C35_example": [],
"C35_history": [],
"C35_refuted_order": [],
"C35_refuted_reserved": [],
"C35_slice": [],
"C36_example": [],
"C36_example_hyps": [],
"C36_nested_actual": [],
"C36_refuted_failing_setter": [],
"C36_refuted_nested": [],
"C36_refuted_rng": [],
"C36_restore": [],
"C36_sequence": [],
"C36_unknown": [],
"C37_bounded": [],
"C37_example": [],
"C37_refuted_aliasing": [],
"C37_refuted_hbar": [
"ClassicalDedekindReals.sig_forall_dec",
"ClassicalDedekindReals.sig_not_dec",
"Classical_Prop.classic",
"FunctionalExtensionality.functional_extensionality_dep"
],
"C37_transparent": [],
"C38_example": [
"ClassicalDedekindReals.sig_forall_dec",
"ClassicalDedekindReals.sig_not_dec",
"ClassicalEpsilon.constructive_indefinite_description",
"Classical_Prop.classic",
"FunctionalExtensionality.functional_extensionality_dep"
],
"C38_minimize": [
"ClassicalDedekindReals.sig_forall_dec",
"ClassicalDedekindReals.sig_not_dec",
"ClassicalEpsilon.constructive_indefinite_description",
"Classical_Prop.classic",
"FunctionalExtensionality.functional_extensionality_dep"
],
"C38_orthogonal": [
"ClassicalDedekindReals.sig_forall_dec",
"ClassicalDedekindReals.sig_not_dec",
"ClassicalEpsilon.constructive_indefinite_description",
"Classical_Prop.classic",
"FunctionalExtensionality.functional_extensionality_dep"
],
"C38_symplectic": [
"ClassicalDedekindReals.sig_forall_dec",
"ClassicalDedekindReals.sig_not_dec",
"ClassicalEpsilon.constructive_indefinite_description",
"Classical_Prop.classic",
"FunctionalExtensionality.functional_extensionality_dep"
],
"C38_symplectic_real": [
"ClassicalDedekindReals.sig_forall_dec",
"ClassicalDedekindReals.sig_not_dec",
"ClassicalEpsilon.constructive_indefinite_description",
"Classical_Prop.classic",
"FunctionalExtensionality.functional_extensionality_dep"
],
"C38_unbounded": [
"ClassicalDedekindReals.sig_forall_dec",
"ClassicalDedekindReals.sig_not_dec",
"ClassicalEpsilon.constructive_indefinite_description",
"Classical_Prop.classic",
"FunctionalExtensionality.functional_extensionality_dep"
],
"C38_unitary": [
"ClassicalDedekindReals.sig_forall_dec",
"ClassicalDedekindReals.sig_not_dec",
"ClassicalEpsilon.constructive_indefinite_description",
"Classical_Prop.classic",
"FunctionalExtensionality.functional_extensionality_dep"
],
"C39_distribution": [
"ClassicalDedekindReals.sig_forall_dec",
"FunctionalExtensionality.functional_extensionality_dep"
],
"C39_example": [
"ClassicalDedekindReals.sig_forall_dec",
"FunctionalExtensionality.functional_extensionality_dep"
],
"C39_normalised": [
"ClassicalDedekindReals.sig_forall_dec",
"FunctionalExtensionality.functional_extensionality_dep"
],
"C39_refuted_seed_two_modes": [
"ClassicalDedekindReals.sig_forall_dec",
"FunctionalExtensionality.functional_extensionality_dep"
],
"C39_refuted_seed_zero": [
"ClassicalDedekindReals.sig_forall_dec",
"FunctionalExtensionality.functional_extensionality_dep"
],
"C39_rows": [
"ClassicalDedekindReals.sig_forall_dec",
"FunctionalExtensionality.functional_extensionality_dep"
],
"C39_seed_one_mode": [
"ClassicalDedekindReals.sig_forall_dec"
],
"C40_errors": [],
"C40_example": [],
"C40_integral": [],
"C40_total": [],
"C40_twice": [],
"C41_example": [
"ClassicalDedekindReals.sig_forall_dec",
"ClassicalDedekindReals.sig_not_dec",
"ClassicalEpsilon.constructive_indefinite_description",
"Classical_Prop.classic",
"FunctionalExtensionality.functional_extensionality_dep"
],
"C41_half_plane": [
"ClassicalDedekindReals.sig_forall_dec",
"ClassicalDedekindReals.sig_not_dec",
"ClassicalEpsilon.constructive_indefinite_description",
"Classical_Prop.classic",
"FunctionalExtensionality.functional_extensionality_dep"
],
"C41_iff": [
"ClassicalDedekindReals.sig_forall_dec",
"ClassicalDedekindReals.sig_not_dec",
"ClassicalEpsilon.constructive_indefinite_description",
"Classical_Prop.classic",
"FunctionalExtensionality.functional_extensionality_dep"
],
"C41_refuted": [
"ClassicalDedekindReals.sig_forall_dec",
"ClassicalDedekindReals.sig_not_dec",
"ClassicalEpsilon.constructive_indefinite_description",
"Classical_Prop.classic",
"FunctionalExtensionality.functional_extensionality_dep"
],
"C41_sign": [
"ClassicalDedekindReals.sig_forall_dec",
"ClassicalDedekindReals.sig_not_dec",
"ClassicalEpsilon.constructive_indefinite_description",
"Classical_Prop.classic",
"FunctionalExtensionality.functional_extensionality_dep"
],
"C42_amplifier_XY": [
"ClassicalDedekindReals.sig_forall_dec",
"ClassicalDedekindReals.sig_not_dec",
"ClassicalEpsilon.constructive_indefinite_description",
"Classical_Prop.classic",
"FunctionalExtensionality.functional_extensionality_dep"
],
"C42_amplifiers": [
"ClassicalDedekindReals.sig_forall_dec",
"ClassicalDedekindReals.sig_not_dec",
"ClassicalEpsilon.constructive_indefinite_description",
"Classical_Prop.classic",
"FunctionalExtensionality.functional_extensionality_dep"
],
"C42_attenuator_XY": [
"ClassicalDedekindReals.sig_forall_dec",
"ClassicalDedekindReals.sig_not_dec",
"ClassicalEpsilon.constructive_indefinite_description",
"Classical_Prop.classic",
"FunctionalExtensionality.functional_extensionality_dep"
],
"C42_attenuators": [
"ClassicalDedekindReals.sig_forall_dec",
"ClassicalDedekindReals.sig_not_dec",
"ClassicalEpsilon.constructive_indefinite_description",
"Classical_Prop.classic",
"FunctionalExtensionality.functional_extensionality_dep"
],
"C42_beamsplitter": [
"ClassicalDedekindReals.sig_forall_dec",
"ClassicalDedekindReals.sig_not_dec",
"ClassicalEpsilon.constructive_indefinite_description",
"Classical_Prop.classic",
"FunctionalExtensionality.functional_extensionality_dep"
],
"C42_coherent_loss": [
"ClassicalDedekindReals.sig_forall_dec",
"ClassicalDedekindReals.sig_not_dec",
"ClassicalEpsilon.constructive_indefinite_description",
"Classical_Prop.classic",
"FunctionalExtensionality.functional_extensionality_dep"
],
"C42_displacement": [
"ClassicalDedekindReals.sig_forall_dec",
"ClassicalDedekindReals.sig_not_dec",
"ClassicalEpsilon.constructive_indefinite_description",
"Classical_Prop.classic",
"FunctionalExtensionality.functional_extensionality_dep"
],
"C42_example": [
"ClassicalDedekindReals.sig_forall_dec",
"ClassicalDedekindReals.sig_not_dec",
"FunctionalExtensionality.functional_extensionality_dep"
],
"C42_noise_XY": [
"ClassicalDedekindReals.sig_forall_dec",
"ClassicalDedekindReals.sig_not_dec",
"ClassicalEpsilon.constructive_indefinite_description",
"Classical_Prop.classic",
"FunctionalExtensionality.functional_extensionality_dep"
],
"C42_noises": [
"ClassicalDedekindReals.sig_forall_dec",
"ClassicalDedekindReals.sig_not_dec",
"ClassicalEpsilon.constructive_indefinite_description",
"Classical_Prop.classic",
"FunctionalExtensionality.functional_extensionality_dep"
],
"C42_passive": [
"ClassicalDedekindReals.sig_forall_dec",
"ClassicalDedekindReals.sig_not_dec",
"ClassicalEpsilon.constructive_indefinite_description",
"Classical_Prop.classic",
"FunctionalExtensionality.functional_extensionality_dep"
],
"C42_rotation": [
"ClassicalDedekindReals.sig_forall_dec",
"ClassicalDedekindReals.sig_not_dec",
"ClassicalEpsilon.constructive_indefinite_description",
"Classical_Prop.classic",
"FunctionalExtensionality.functional_extensionality_dep"
],
"C42_squeezing": [
"ClassicalDedekindReals.sig_forall_dec",
"ClassicalDedekindReals.sig_not_dec",
"ClassicalEpsilon.constructive_indefinite_description",
"Classical_Prop.classic",
"FunctionalExtensionality.functional_extensionality_dep"
],
"C42_twomode": [
"ClassicalDedekindReals.sig_forall_dec",
"ClassicalDedekindReals.sig_not_dec",
"ClassicalEpsilon.constructive_indefinite_description",
"Classical_Prop.classic",
"FunctionalExtensionality.functional_extensionality_dep"
],
"C43_cx": [
"ClassicalDedekindReals.sig_forall_dec",
"ClassicalEpsilon.constructive_indefinite_description",
"Classical_Prop.classic",
"FunctionalExtensionality.functional_extensionality_dep"
],
"C43_cz": [
"ClassicalDedekindReals.sig_forall_dec",
"ClassicalEpsilon.constructive_indefinite_description",
"Classical_Prop.classic",
"FunctionalExtensionality.functional_extensionality_dep"
],
"C43_example": [
"ClassicalDedekindReals.sig_forall_dec",
"ClassicalDedekindReals.sig_not_dec",
"ClassicalEpsilon.constructive_indefinite_description",
"Classical_Prop.classic",
"FunctionalExtensionality.functional_extensionality_dep"
],
"C43_interferometer": [
"ClassicalDedekindReals.sig_forall_dec",
"ClassicalEpsilon.constructive_indefinite_description",
"Classical_Prop.classic",
"FunctionalExtensionality.functional_extensionality_dep"
],
"C43_mz": [
"ClassicalDedekindReals.sig_forall_dec",
"ClassicalDedekindReals.sig_not_dec",
"ClassicalEpsilon.constructive_indefinite_description",
"Classical_Prop.classic",
"FunctionalExtensionality.functional_extensionality_dep"
],
"C43_p": [
"ClassicalDedekindReals.sig_forall_dec",
"ClassicalEpsilon.constructive_indefinite_description",
"Classical_Prop.classic",
"FunctionalExtensionality.functional_extensionality_dep"
],
"C43_realinterferometer": [
"ClassicalDedekindReals.sig_forall_dec",
"ClassicalEpsilon.constructive_indefinite_description",
"Classical_Prop.classic",
"FunctionalExtensionality.functional_extensionality_dep"
],
"C43_symplectic": [
"ClassicalDedekindReals.sig_forall_dec",
"ClassicalDedekindReals.sig_not_dec",
"ClassicalEpsilon.constructive_indefinite_description",
"Classical_Prop.classic",
"FunctionalExtensionality.functional_extensionality_dep"
],
"C43_triples": [
"ClassicalDedekindReals.sig_forall_dec",
"ClassicalDedekindReals.sig_not_dec",
"ClassicalEpsilon.constructive_indefinite_description",
"Classical_Prop.classic",
"FunctionalExtensionality.functional_extensionality_dep"
],
"C44_channel": [
"ClassicalDedekindReals.sig_forall_dec",
"ClassicalDedekindReals.sig_not_dec",
"ClassicalEpsilon.constructive_indefinite_description",
"Classical_Prop.classic",
"FunctionalExtensionality.functional_extensionality_dep"
],
"C44_channel_physical": [
"ClassicalDedekindReals.sig_forall_dec",
"ClassicalDedekindReals.sig_not_dec",
"ClassicalEpsilon.constructive_indefinite_description",
"Classical_Prop.classic",
"FunctionalExtensionality.functional_extensionality_dep"
],
"C44_example": [
"ClassicalDedekindReals.sig_forall_dec",
"ClassicalDedekindReals.sig_not_dec",
"ClassicalEpsilon.constructive_indefinite_description",
"Classical_Prop.classic",
"FunctionalExtensionality.functional_extensionality_dep"
],
"C44_kernel": [
"ClassicalDedekindReals.sig_forall_dec",
"ClassicalDedekindReals.sig_not_dec",
"ClassicalEpsilon.constructive_indefinite_description",
"Classical_Prop.classic",
"FunctionalExtensionality.functional_extensionality_dep"
],
"C44_symplectic": [
"ClassicalDedekindReals.sig_forall_dec",
"ClassicalDedekindReals.sig_not_dec",
"ClassicalEpsilon.constructive_indefinite_description",
"Classical_Prop.classic",
"FunctionalExtensionality.functional_extensionality_dep"
],
"C44_unitary": [
"ClassicalDedekindReals.sig_forall_dec",
"ClassicalDedekindReals.sig_not_dec",
"ClassicalEpsilon.constructive_indefinite_description",
"Classical_Prop.classic",
"FunctionalExtensionality.functional_extensionality_dep"
],
"C45_CP": [
"ClassicalDedekindReals.sig_forall_dec",
"ClassicalDedekindReals.sig_not_dec",
"ClassicalEpsilon.constructive_indefinite_description",
"Classical_Prop.classic",
"FunctionalExtensionality.functional_extensionality_dep"
],
"C45_TP": [
"ClassicalDedekindReals.sig_forall_dec",
"ClassicalDedekindReals.sig_not_dec",
"ClassicalEpsilon.constructive_indefinite_description",
"Classical_Prop.classic",
"FunctionalExtensionality.functional_extensionality_dep"
],
"C45_TP_XY": [
"ClassicalDedekindReals.sig_forall_dec",
"ClassicalDedekindReals.sig_not_dec",
"ClassicalEpsilon.constructive_indefinite_description",
"Classical_Prop.classic",
"FunctionalExtensionality.functional_extensionality_dep"
],
"C45_TP_modes_refuted": [
"ClassicalDedekindReals.sig_forall_dec",
"ClassicalEpsilon.constructive_indefinite_description",
"Classical_Prop.classic",
"FunctionalExtensionality.functional_extensionality_dep"
],
"C45_TP_rank": [
"ClassicalDedekindReals.sig_forall_dec",
"ClassicalEpsilon.constructive_indefinite_description",
"Classical_Prop.classic",
"FunctionalExtensionality.functional_extensionality_dep"
],
"C45_TP_refuted": [
"ClassicalDedekindReals.sig_forall_dec",
"ClassicalDedekindReals.sig_not_dec",
"ClassicalEpsilon.constructive_indefinite_description",
"Classical_Prop.classic",
"FunctionalExtensionality.functional_extensionality_dep"
],
"C45_TP_refuted_scale": [
"ClassicalDedekindReals.sig_forall_dec",
"ClassicalDedekindReals.sig_not_dec",
"ClassicalEpsilon.constructive_indefinite_description",
"Classical_Prop.classic",
"FunctionalExtensionality.functional_extensionality_dep"
],
"C45_attenuator": [
"ClassicalDedekindReals.sig_forall_dec",
"ClassicalDedekindReals.sig_not_dec",
"ClassicalEpsilon.constructive_indefinite_description",
"Classical_Prop.classic",
"FunctionalExtensionality.functional_extensionality_dep"
],
"C45_positive": [
"ClassicalDedekindReals.sig_forall_dec",
"ClassicalDedekindReals.sig_not_dec",
"ClassicalEpsilon.constructive_indefinite_description",
"Classical_Prop.classic",
"FunctionalExtensionality.functional_extensionality_dep"
],
"C46_dm_formal": [
"ClassicalDedekindReals.sig_forall_dec",
"ClassicalDedekindReals.sig_not_dec",
"ClassicalEpsilon.constructive_indefinite_description",
"Classical_Prop.classic",
"FunctionalExtensionality.functional_extensionality_dep"
],
"C46_formal": [
"ClassicalDedekindReals.sig_forall_dec",
"ClassicalDedekindReals.sig_not_dec",
"ClassicalEpsilon.constructive_indefinite_description",
"Classical_Prop.classic",
"FunctionalExtensionality.functional_extensionality_dep"
],
"C46_formal_example": [
"ClassicalDedekindReals.sig_forall_dec",
"ClassicalDedekindReals.sig_not_dec",
"ClassicalEpsilon.constructive_indefinite_description",
"Classical_Prop.classic",
"FunctionalExtensionality.functional_extensionality_dep"
],
"C46_physical": [
"ClassicalDedekindReals.sig_forall_dec",
"ClassicalDedekindReals.sig_not_dec",
"ClassicalEpsilon.constructive_indefinite_description",
"Classical_Prop.classic",
"FunctionalExtensionality.functional_extensionality_dep"
],
"C46_physical_example": [
"ClassicalDedekindReals.sig_forall_dec",
"ClassicalDedekindReals.sig_not_dec",
"ClassicalEpsilon.constructive_indefinite_description",
"Classical_Prop.classic",
"FunctionalExtensionality.functional_extensionality_dep"
],
"C46_physical_refuted": [
"ClassicalDedekindReals.sig_forall_dec",
"ClassicalDedekindReals.sig_not_dec",
"ClassicalEpsilon.constructive_indefinite_description",
"Classical_Prop.classic",
"FunctionalExtensionality.functional_extensionality_dep"
],
"C46_physical_returns": [
"ClassicalDedekindReals.sig_forall_dec",
"ClassicalDedekindReals.sig_not_dec",
"ClassicalEpsilon.constructive_indefinite_description",
"Classical_Prop.classic",
"FunctionalExtensionality.functional_extensionality_dep"
],
"C46_physical_singular": [
"ClassicalDedekindReals.sig_forall_dec",
"ClassicalDedekindReals.sig_not_dec",
"ClassicalEpsilon.constructive_indefinite_description",
"Classical_Prop.classic",
"FunctionalExtensionality.functional_extensionality_dep"
],
"C46_physical_unitary": [
"ClassicalDedekindReals.sig_forall_dec",
"ClassicalDedekindReals.sig_not_dec",
"ClassicalEpsilon.constructive_indefinite_description",
"Classical_Prop.classic",
"FunctionalExtensionality.functional_extensionality_dep"
],
"C46_physical_unitary_cases": [
"ClassicalDedekindReals.sig_forall_dec",
"ClassicalDedekindReals.sig_not_dec",
"ClassicalEpsilon.constructive_indefinite_description",
"Classical_Prop.classic",
"FunctionalExtensionality.functional_extensionality_dep"
],
"C46_physical_unitary_refuted": [
"ClassicalDedekindReals.sig_forall_dec",
"ClassicalDedekindReals.sig_not_dec",
"ClassicalEpsilon.constructive_indefinite_description",
"Classical_Prop.classic",
"FunctionalExtensionality.functional_extensionality_dep"
],
"C46_sparse": [],
"C46_sparse_example": [],
"C47_example": [],
"C47_full": [],
"C47_path_independent": [],
"C47_refuted_equal_pair": [],
"C47_refuted_outer": [],
"C47_refuted_single": [],
"C47_returns": [],
"C47_union_example": [],
"C47_union_paths": [],
"C48": [
"ClassicalDedekindReals.sig_forall_dec",
"ClassicalDedekindReals.sig_not_dec",
"ClassicalEpsilon.constructive_indefinite_description",
"Classical_Prop.classic",
"FunctionalExtensionality.functional_extensionality_dep"
],
"C48_example": [
"ClassicalDedekindReals.sig_forall_dec",
"ClassicalDedekindReals.sig_not_dec",
"ClassicalEpsilon.constructive_indefinite_description",
"Classical_Prop.classic",
"FunctionalExtensionality.functional_extensionality_dep"
],
"C48_refuted_tall": [
"ClassicalDedekindReals.sig_forall_dec",
"ClassicalDedekindReals.sig_not_dec",
"ClassicalEpsilon.constructive_indefinite_description",
"Classical_Prop.classic",
"FunctionalExtensionality.functional_extensionality_dep"
],
"C48_refuted_wide": [
"ClassicalDedekindReals.sig_forall_dec",
"ClassicalDedekindReals.sig_not_dec",
"ClassicalEpsilon.constructive_indefinite_description",
"Classical_Prop.classic",
"FunctionalExtensionality.functional_extensionality_dep"
],
"C49_exact": [
"ClassicalDedekindReals.sig_forall_dec",
"FunctionalExtensionality.functional_extensionality_dep"
],
"C49_metadata": [
"ClassicalDedekindReals.sig_forall_dec",
"FunctionalExtensionality.functional_extensionality_dep"
],
"C49_refuted": [
"ClassicalDedekindReals.sig_forall_dec",
"FunctionalExtensionality.functional_extensionality_dep"
],
"C50_dual": [
"ClassicalDedekindReals.sig_forall_dec",
"ClassicalDedekindReals.sig_not_dec",
"ClassicalEpsilon.constructive_indefinite_description",
"Classical_Prop.classic",
"FunctionalExtensionality.functional_extensionality_dep"
],
"C50_example": [
"ClassicalDedekindReals.sig_forall_dec",
"ClassicalDedekindReals.sig_not_dec",
"ClassicalEpsilon.constructive_indefinite_description",
"Classical_Prop.classic",
"FunctionalExtensionality.functional_extensionality_dep"
],
"C50_refuted": [
"ClassicalDedekindReals.sig_forall_dec",
"ClassicalDedekindReals.sig_not_dec",
"ClassicalEpsilon.constructive_indefinite_description",
"Classical_Prop.classic",
"FunctionalExtensionality.functional_extensionality_dep"
],
"C50_transformation": [
"ClassicalDedekindReals.sig_forall_dec",
"ClassicalDedekindReals.sig_not_dec",
"ClassicalEpsilon.constructive_indefinite_description",
"Classical_Prop.classic",
"FunctionalExtensionality.functional_extensionality_dep"
],
"C50_transformation_example": [
"ClassicalDedekindReals.sig_forall_dec",
"ClassicalDedekindReals.sig_not_dec",
"ClassicalEpsilon.constructive_indefinite_description",
"Classical_Prop.classic",
"FunctionalExtensionality.functional_extensionality_dep"
],
"C50_transformation_refuted": [
"ClassicalDedekindReals.sig_forall_dec",
"ClassicalDedekindReals.sig_not_dec",
"ClassicalEpsilon.constructive_indefinite_description",
"Classical_Prop.classic",
"FunctionalExtensionality.functional_extensionality_dep"
],
"C50_transformation_returns": [
"ClassicalDedekindReals.sig_forall_dec",
"ClassicalDedekindReals.sig_not_dec",
"ClassicalEpsilon.constructive_indefinite_description",
"Classical_Prop.classic",
"FunctionalExtensionality.functional_extensionality_dep"
],
"C50_unitary": [
"ClassicalDedekindReals.sig_forall_dec",
"ClassicalDedekindReals.sig_not_dec",
"ClassicalEpsilon.constructive_indefinite_description",
"Classical_Prop.classic",
"FunctionalExtensionality.functional_extensionality_dep"
],
"C50_unitary_left": [
"ClassicalDedekindReals.sig_forall_dec",
"ClassicalDedekindReals.sig_not_dec",
"ClassicalEpsilon.constructive_indefinite_description",
"Classical_Prop.classic",
"FunctionalExtensionality.functional_extensionality_dep"
],
"C51_equality": [],
"C51_example": [],
"C51_refuted_broadcast": [],
"C52_add": [],
"C52_add_error": [],
"C52_and": [],
"C52_eq": [],
"C52_refuted_eq_trans": [],
"C52_refuted_shape_of_self": [],
"C52_reorder": [],
"C52_reorder_batch": [],
"C53": [
"ClassicalDedekindReals.sig_forall_dec",
"ClassicalDedekindReals.sig_not_dec",
"ClassicalEpsilon.constructive_indefinite_description",
"Classical_Prop.classic",
"FunctionalExtensionality.functional_extensionality_dep"
],
"C54": [
"ClassicalDedekindReals.sig_forall_dec",
"ClassicalDedekindReals.sig_not_dec",
"ClassicalEpsilon.constructive_indefinite_description",
"Classical_Prop.classic",
"FunctionalExtensionality.functional_extensionality_dep"
],
"C55": [
"ClassicalDedekindReals.sig_forall_dec",
"ClassicalDedekindReals.sig_not_dec",
"ClassicalEpsilon.constructive_indefinite_description",
"Classical_Prop.classic",
"FunctionalExtensionality.functional_extensionality_dep"
],
"C55_displaced": [
"ClassicalDedekindReals.sig_forall_dec",
"ClassicalDedekindReals.sig_not_dec",
"ClassicalEpsilon.constructive_indefinite_description",
"Classical_Prop.classic",
"FunctionalExtensionality.functional_extensionality_dep"
],
"C55_displaced_refuted": [
"ClassicalDedekindReals.sig_forall_dec",
"ClassicalDedekindReals.sig_not_dec",
"ClassicalEpsilon.constructive_indefinite_description",
"Classical_Prop.classic",
"FunctionalExtensionality.functional_extensionality_dep"
],
"C55_probability": [
"ClassicalDedekindReals.sig_forall_dec",
"ClassicalDedekindReals.sig_not_dec",
"ClassicalEpsilon.constructive_indefinite_description",
"Classical_Prop.classic",
"FunctionalExtensionality.functional_extensionality_dep"
],
"C55_thermal": [
"ClassicalDedekindReals.sig_forall_dec",
"ClassicalDedekindReals.sig_not_dec",
"ClassicalEpsilon.constructive_indefinite_description",
"Classical_Prop.classic",
"FunctionalExtensionality.functional_extensionality_dep"
],
"C55_thermal_million": [
"ClassicalDedekindReals.sig_forall_dec",
"ClassicalDedekindReals.sig_not_dec",
"ClassicalEpsilon.constructive_indefinite_description",
"Classical_Prop.classic",
"FunctionalExtensionality.functional_extensionality_dep"
],
"C55_thermal_probability_refuted": [
"ClassicalDedekindReals.sig_forall_dec",
"ClassicalDedekindReals.sig_not_dec",
"ClassicalEpsilon.constructive_indefinite_description",
"Classical_Prop.classic",
"FunctionalExtensionality.functional_extensionality_dep"
],
"C55_trace_preserving": [
"ClassicalDedekindReals.sig_forall_dec",
"ClassicalDedekindReals.sig_not_dec",
"ClassicalEpsilon.constructive_indefinite_description",
"Classical_Prop.classic",
"FunctionalExtensionality.functional_extensionality_dep"
],
"C56_call": [],
"C56_call_too_many": [],
"C56_complex": [
"ClassicalDedekindReals.sig_forall_dec",
"ClassicalDedekindReals.sig_not_dec",
"FunctionalExtensionality.functional_extensionality_dep"
],
"C56_documented": [],
"C56_eval_too_many": [],
"C56_example": [
"ClassicalDedekindReals.sig_forall_dec",
"ClassicalDedekindReals.sig_not_dec",
"FunctionalExtensionality.functional_extensionality_dep"
],
"C56_refuted_call_skips": [],
"C56_refuted_documentation": [
"ClassicalDedekindReals.sig_forall_dec",
"ClassicalDedekindReals.sig_not_dec",
"FunctionalExtensionality.functional_extensionality_dep"
],
"C56_some_variables": [],
"C57_complex": [
"ClassicalDedekindReals.sig_forall_dec",
"ClassicalDedekindReals.sig_not_dec",
"FunctionalExtensionality.functional_extensionality_dep"
],
"C57_conj": [],
"C57_decompose": [],
"C57_example": [
"ClassicalDedekindReals.sig_forall_dec",
"ClassicalDedekindReals.sig_not_dec",
"FunctionalExtensionality.functional_extensionality_dep"
],
"C57_reorder": [],
"C57_scalar": [],
"C57_scale": [],
"C58_and": [],
"C58_and_error": [],
"C58_and_refuted": [],
"C58_example": [
"ClassicalDedekindReals.sig_forall_dec",
"ClassicalDedekindReals.sig_not_dec",
"FunctionalExtensionality.functional_extensionality_dep"
],
"C58_join": [],
"C58_join_refuted": [],
"C59_circuit": [
"ClassicalDedekindReals.sig_forall_dec",
"ClassicalDedekindReals.sig_not_dec",
"ClassicalEpsilon.constructive_indefinite_description",
"Classical_Prop.classic",
"FunctionalExtensionality.functional_extensionality_dep"
],
"C59_circuit_norm": [
"ClassicalDedekindReals.sig_forall_dec",
"ClassicalDedekindReals.sig_not_dec",
"ClassicalEpsilon.constructive_indefinite_description",
"Classical_Prop.classic",
"FunctionalExtensionality.functional_extensionality_dep"
],
"C59_coherent": [
"ClassicalDedekindReals.sig_forall_dec",
"ClassicalDedekindReals.sig_not_dec",
"ClassicalEpsilon.constructive_indefinite_description",
"Classical_Prop.classic",
"FunctionalExtensionality.functional_extensionality_dep"
],
"C59_displaced_squeezed": [
"ClassicalDedekindReals.sig_forall_dec",
"ClassicalDedekindReals.sig_not_dec",
"ClassicalEpsilon.constructive_indefinite_description",
"Classical_Prop.classic",
"FunctionalExtensionality.functional_extensionality_dep"
],
"C59_dm_probability": [
"ClassicalDedekindReals.sig_forall_dec",
"ClassicalDedekindReals.sig_not_dec",
"ClassicalEpsilon.constructive_indefinite_description",
"Classical_Prop.classic",
"FunctionalExtensionality.functional_extensionality_dep"
],
"C59_example": [
"ClassicalDedekindReals.sig_forall_dec",
"ClassicalDedekindReals.sig_not_dec",
"ClassicalEpsilon.constructive_indefinite_description",
"Classical_Prop.classic",
"FunctionalExtensionality.functional_extensionality_dep"
],
"C59_gket": [
"ClassicalDedekindReals.sig_forall_dec",
"ClassicalDedekindReals.sig_not_dec",
"ClassicalEpsilon.constructive_indefinite_description",
"Classical_Prop.classic",
"FunctionalExtensionality.functional_extensionality_dep"
],
"C59_norm": [
"ClassicalDedekindReals.sig_forall_dec",
"ClassicalDedekindReals.sig_not_dec",
"ClassicalEpsilon.constructive_indefinite_description",
"Classical_Prop.classic",
"FunctionalExtensionality.functional_extensionality_dep"
],
"C59_norm_refuted": [
"ClassicalDedekindReals.sig_forall_dec",
"ClassicalDedekindReals.sig_not_dec",
"ClassicalEpsilon.constructive_indefinite_description",
"Classical_Prop.classic",
"FunctionalExtensionality.functional_extensionality_dep"
],
"C59_purity": [
"ClassicalDedekindReals.sig_forall_dec",
"ClassicalDedekindReals.sig_not_dec",
"ClassicalEpsilon.constructive_indefinite_description",
"Classical_Prop.classic",
"FunctionalExtensionality.functional_extensionality_dep"
],
"C59_purity_refuted": [
"ClassicalDedekindReals.sig_forall_dec",
"ClassicalDedekindReals.sig_not_dec",
"ClassicalEpsilon.constructive_indefinite_description",
"Classical_Prop.classic",
"FunctionalExtensionality.functional_extensionality_dep"
],
"C59_squeezed": [
"ClassicalDedekindReals.sig_forall_dec",
"ClassicalDedekindReals.sig_not_dec",
"ClassicalEpsilon.constructive_indefinite_description",
"Classical_Prop.classic",
"FunctionalExtensionality.functional_extensionality_dep"
],
"C59_two": [
"ClassicalDedekindReals.sig_forall_dec",
"ClassicalDedekindReals.sig_not_dec",
"ClassicalEpsilon.constructive_indefinite_description",
"Classical_Prop.classic",
"FunctionalExtensionality.functional_extensionality_dep"
],
"C59_two_mode": [
"ClassicalDedekindReals.sig_forall_dec",
"ClassicalDedekindReals.sig_not_dec",
"ClassicalEpsilon.constructive_indefinite_description",
"Classical_Prop.classic",
"FunctionalExtensionality.functional_extensionality_dep"
],
"C59_vacuum": [
"ClassicalDedekindReals.sig_forall_dec",
"ClassicalDedekindReals.sig_not_dec",
"ClassicalEpsilon.constructive_indefinite_description",
"Classical_Prop.classic",
"FunctionalExtensionality.functional_extensionality_dep"
],
"C60_circuit": [
"ClassicalDedekindReals.sig_forall_dec",
"ClassicalDedekindReals.sig_not_dec",
"ClassicalEpsilon.constructive_indefinite_description",
"Classical_Prop.classic",
"FunctionalExtensionality.functional_extensionality_dep"
],
"C60_dm": [
"ClassicalDedekindReals.sig_forall_dec",
"ClassicalDedekindReals.sig_not_dec",
"ClassicalEpsilon.constructive_indefinite_description",
"Classical_Prop.classic",
"FunctionalExtensionality.functional_extensionality_dep"
],
"C60_dm_refuted": [
"ClassicalDedekindReals.sig_forall_dec",
"ClassicalDedekindReals.sig_not_dec",
"ClassicalEpsilon.constructive_indefinite_description",
"Classical_Prop.classic",
"FunctionalExtensionality.functional_extensionality_dep"
],
"C60_eigenvalues": [
"ClassicalDedekindReals.sig_forall_dec",
"ClassicalDedekindReals.sig_not_dec",
"ClassicalEpsilon.constructive_indefinite_description",
"Classical_Prop.classic",
"FunctionalExtensionality.functional_extensionality_dep"
],
"C60_example": [
"ClassicalDedekindReals.sig_forall_dec",
"ClassicalDedekindReals.sig_not_dec",
"ClassicalEpsilon.constructive_indefinite_description",
"Classical_Prop.classic",
"FunctionalExtensionality.functional_extensionality_dep"
],
"C60_one_mode": [
"ClassicalDedekindReals.sig_forall_dec",
"ClassicalDedekindReals.sig_not_dec",
"ClassicalEpsilon.constructive_indefinite_description",
"Classical_Prop.classic",
"FunctionalExtensionality.functional_extensionality_dep"
],
"C60_physical": [
"ClassicalDedekindReals.sig_forall_dec",
"ClassicalDedekindReals.sig_not_dec",
"ClassicalEpsilon.constructive_indefinite_description",
"Classical_Prop.classic",
"FunctionalExtensionality.functional_extensionality_dep"
],
"C60_population": [
"ClassicalDedekindReals.sig_forall_dec",
"ClassicalDedekindReals.sig_not_dec",
"ClassicalEpsilon.constructive_indefinite_description",
"Classical_Prop.classic",
"FunctionalExtensionality.functional_extensionality_dep"
],
"C60_refuted": [
"ClassicalDedekindReals.sig_forall_dec",
"ClassicalDedekindReals.sig_not_dec",
"ClassicalEpsilon.constructive_indefinite_description",
"Classical_Prop.classic",
"FunctionalExtensionality.functional_extensionality_dep"
],
"C61_add": [],
"C61_add_batch_refuted": [],
"C61_add_example": [
"ClassicalDedekindReals.sig_forall_dec",
"ClassicalDedekindReals.sig_not_dec",
"FunctionalExtensionality.functional_extensionality_dep"
],
"C61_add_guards": [],
"C61_add_refuted": [],
"C61_add_rejected": [],
"C61_sub": [],
"C62_clenshaw": [
"ClassicalDedekindReals.sig_forall_dec",
"ClassicalDedekindReals.sig_not_dec",
"FunctionalExtensionality.functional_extensionality_dep"
],
"C62_empty": [
"ClassicalDedekindReals.sig_forall_dec",
"ClassicalDedekindReals.sig_not_dec",
"FunctionalExtensionality.functional_extensionality_dep"
],
"C62_iterative": [
"ClassicalDedekindReals.sig_forall_dec",
"ClassicalDedekindReals.sig_not_dec",
"FunctionalExtensionality.functional_extensionality_dep"
],
"C62_methods_agree": [
"ClassicalDedekindReals.sig_forall_dec",
"ClassicalDedekindReals.sig_not_dec",
"FunctionalExtensionality.functional_extensionality_dep"
],
"C62_refuted": [
"ClassicalDedekindReals.sig_forall_dec",
"ClassicalDedekindReals.sig_not_dec",
"FunctionalExtensionality.functional_extensionality_dep"
],
"C62_single_photon": [
"ClassicalDedekindReals.sig_forall_dec",
"ClassicalDedekindReals.sig_not_dec",
"FunctionalExtensionality.functional_extensionality_dep"
],
"C62_vacuum": [
"ClassicalDedekindReals.sig_forall_dec",
"ClassicalDedekindReals.sig_not_dec",
"FunctionalExtensionality.functional_extensionality_dep"
],
"C63_complete": [
"ClassicalDedekindReals.sig_forall_dec",
"ClassicalDedekindReals.sig_not_dec",
"ClassicalEpsilon.constructive_indefinite_description",
"Classical_Prop.classic",
"FunctionalExtensionality.functional_extensionality_dep"
],
"C63_example": [
"ClassicalDedekindReals.sig_forall_dec",
"ClassicalDedekindReals.sig_not_dec",
"ClassicalEpsilon.constructive_indefinite_description",
"Classical_Prop.classic",
"FunctionalExtensionality.functional_extensionality_dep"
],
"C63_gaussian": [
"ClassicalDedekindReals.sig_forall_dec",
"ClassicalDedekindReals.sig_not_dec",
"ClassicalEpsilon.constructive_indefinite_description",
"Classical_Prop.classic",
"FunctionalExtensionality.functional_extensionality_dep"
],
"C63_ket": [
"ClassicalDedekindReals.sig_forall_dec",
"ClassicalDedekindReals.sig_not_dec",
"ClassicalEpsilon.constructive_indefinite_description",
"Classical_Prop.classic",
"FunctionalExtensionality.functional_extensionality_dep"
],
"C63_ket_atol": [
"ClassicalDedekindReals.sig_forall_dec",
"ClassicalDedekindReals.sig_not_dec",
"ClassicalEpsilon.constructive_indefinite_description",
"Classical_Prop.classic",
"FunctionalExtensionality.functional_extensionality_dep"
],
"C63_ket_coeff_refuted": [
"ClassicalDedekindReals.sig_forall_dec",
"ClassicalDedekindReals.sig_not_dec",
"ClassicalEpsilon.constructive_indefinite_description",
"Classical_Prop.classic",
"FunctionalExtensionality.functional_extensionality_dep"
],
"C63_pure": [
"ClassicalDedekindReals.sig_forall_dec",
"ClassicalDedekindReals.sig_not_dec",
"ClassicalEpsilon.constructive_indefinite_description",
"Classical_Prop.classic",
"FunctionalExtensionality.functional_extensionality_dep"
],
"C63_purity": [
"ClassicalDedekindReals.sig_forall_dec",
"ClassicalDedekindReals.sig_not_dec",
"ClassicalEpsilon.constructive_indefinite_description",
"Classical_Prop.classic",
"FunctionalExtensionality.functional_extensionality_dep"
],
"C63_roundtrip": [
"ClassicalDedekindReals.sig_forall_dec",
"ClassicalDedekindReals.sig_not_dec",
"ClassicalEpsilon.constructive_indefinite_description",
"Classical_Prop.classic",
"FunctionalExtensionality.functional_extensionality_dep"
],
"C64_diagonal": [],
"C64_example": [
"ClassicalDedekindReals.sig_forall_dec",
"ClassicalDedekindReals.sig_not_dec",
"FunctionalExtensionality.functional_extensionality_dep"
],
"C64_interleaved": [],
"C64_rejected": [],
"C65_backends": [],
"C65_backends_refuted_reordered": [],
"C65_backends_refuted_small": [],
"C65_conditional": [],
"C65_example": [
"ClassicalDedekindReals.sig_forall_dec",
"ClassicalDedekindReals.sig_not_dec",
"FunctionalExtensionality.functional_extensionality_dep"
],
"C65_interleaved": [],
"C65_rejected": [],
"C66_complex": [
"ClassicalDedekindReals.sig_forall_dec",
"ClassicalDedekindReals.sig_not_dec",
"FunctionalExtensionality.functional_extensionality_dep"
],
"C66_diagonal_vjp": [],
"C66_example": [
"ClassicalDedekindReals.sig_forall_dec",
"ClassicalDedekindReals.sig_not_dec",
"FunctionalExtensionality.functional_extensionality_dep"
],
"C66_leftover_vjp": [],
"C66_rejected": [
"ClassicalDedekindReals.sig_forall_dec",
"ClassicalDedekindReals.sig_not_dec",
"FunctionalExtensionality.functional_extensionality_dep"
],
"C67_beamsplitter": [
"ClassicalDedekindReals.sig_forall_dec",
"ClassicalDedekindReals.sig_not_dec",
"Classical_Prop.classic",
"FunctionalExtensionality.functional_extensionality_dep"
],
"C67_grad_displacement": [
"ClassicalDedekindReals.sig_forall_dec",
"ClassicalDedekindReals.sig_not_dec",
"Classical_Prop.classic",
"FunctionalExtensionality.functional_extensionality_dep"
],
"C67_jax_beamsplitter": [
"ClassicalDedekindReals.sig_forall_dec",
"ClassicalDedekindReals.sig_not_dec",
"Classical_Prop.classic",
"FunctionalExtensionality.functional_extensionality_dep"
],
"C67_jax_displacement": [
"ClassicalDedekindReals.sig_forall_dec",
"ClassicalDedekindReals.sig_not_dec",
"Classical_Prop.classic",
"FunctionalExtensionality.functional_extensionality_dep"
],
"C67_jax_refuted": [
"ClassicalDedekindReals.sig_forall_dec",
"ClassicalDedekindReals.sig_not_dec",
"Classical_Prop.classic",
"FunctionalExtensionality.functional_extensionality_dep"
],
"C67_jax_squeezed": [
"ClassicalDedekindReals.sig_forall_dec",
"ClassicalDedekindReals.sig_not_dec",
"Classical_Prop.classic",
"FunctionalExtensionality.functional_extensionality_dep"
],
"C67_jax_squeezer": [
"ClassicalDedekindReals.sig_forall_dec",
"ClassicalDedekindReals.sig_not_dec",
"Classical_Prop.classic",
"FunctionalExtensionality.functional_extensionality_dep"
],
"C67_squeezed": [
"ClassicalDedekindReals.sig_forall_dec",
"ClassicalDedekindReals.sig_not_dec",
"Classical_Prop.classic",
"FunctionalExtensionality.functional_extensionality_dep"
],
"C67_squeezer": [
"ClassicalDedekindReals.sig_forall_dec",
"ClassicalDedekindReals.sig_not_dec",
"Classical_Prop.classic",
"FunctionalExtensionality.functional_extensionality_dep"
],
"C67_table_refuted": [
"ClassicalDedekindReals.sig_forall_dec",
"ClassicalDedekindReals.sig_not_dec",
"FunctionalExtensionality.functional_extensionality_dep"
],
"C68_apply": [
"ClassicalDedekindReals.sig_forall_dec",
"ClassicalDedekindReals.sig_not_dec",
"Classical_Prop.classic",
"FunctionalExtensionality.functional_extensionality_dep"
],
"C68_eigh_exists": [
"ClassicalDedekindReals.sig_forall_dec",
"ClassicalDedekindReals.sig_not_dec",
"Classical_Prop.classic",
"FunctionalExtensionality.functional_extensionality_dep"
],
"C68_example": [
"ClassicalDedekindReals.sig_forall_dec",
"ClassicalDedekindReals.sig_not_dec",
"Classical_Prop.classic",
"FunctionalExtensionality.functional_extensionality_dep"
],
"C68_isometry": [
"ClassicalDedekindReals.sig_forall_dec",
"ClassicalDedekindReals.sig_not_dec",
"Classical_Prop.classic",
"FunctionalExtensionality.functional_extensionality_dep"
],
"C68_refuted_unequal": [
"ClassicalDedekindReals.sig_forall_dec",
"ClassicalDedekindReals.sig_not_dec",
"FunctionalExtensionality.functional_extensionality_dep"
],
"C69_dm_dm": [],
"C69_dm_ket": [],
"C69_dm_unitary": [],
"C69_example": [],
"C69_fidelity": [],
"C69_fidelity_modes": [],
"C69_fidelity_symmetric": [],
"C69_invalid": [],
"C69_ket_dm": [],
"C69_ket_ket": [],
"C69_ket_unitary": [],
"C69_modes": [],
"C69_refuted_nonhermitian": [],
"C70_dm_of_ket": [
"ClassicalDedekindReals.sig_forall_dec",
"ClassicalDedekindReals.sig_not_dec",
"FunctionalExtensionality.functional_extensionality_dep"
],
"C70_dm_probability": [
"ClassicalDedekindReals.sig_forall_dec",
"FunctionalExtensionality.functional_extensionality_dep"
],
"C70_dm_purity": [
"ClassicalDedekindReals.sig_forall_dec",
"ClassicalDedekindReals.sig_not_dec",
"FunctionalExtensionality.functional_extensionality_dep"
],
"C70_example": [
"ClassicalDedekindReals.sig_forall_dec",
"ClassicalDedekindReals.sig_not_dec",
"FunctionalExtensionality.functional_extensionality_dep"
],
"C70_fidelity_bounds": [
"ClassicalDedekindReals.sig_forall_dec",
"ClassicalDedekindReals.sig_not_dec",
"FunctionalExtensionality.functional_extensionality_dep"
],
"C70_hermitian": [
"ClassicalDedekindReals.sig_forall_dec",
"ClassicalDedekindReals.sig_not_dec",
"FunctionalExtensionality.functional_extensionality_dep"
],
"C70_ket_probability": [
"ClassicalDedekindReals.sig_forall_dec",
"ClassicalDedekindReals.sig_not_dec",
"FunctionalExtensionality.functional_extensionality_dep"
],
"C70_normalize_dm": [
"ClassicalDedekindReals.sig_forall_dec",
"ClassicalDedekindReals.sig_not_dec",
"FunctionalExtensionality.functional_extensionality_dep"
],
"C70_normalize_ket": [
"ClassicalDedekindReals.sig_forall_dec",
"ClassicalDedekindReals.sig_not_dec",
"FunctionalExtensionality.functional_extensionality_dep"
],
"C70_purity_bounds": [
"ClassicalDedekindReals.sig_forall_dec",
"ClassicalDedekindReals.sig_not_dec",
"FunctionalExtensionality.functional_extensionality_dep"
],
"C71_basis": [
"ClassicalDedekindReals.sig_forall_dec",
"ClassicalDedekindReals.sig_not_dec",
"Classical_Prop.classic",
"FunctionalExtensionality.functional_extensionality_dep"
],
"C71_distribution_dm": [
"ClassicalDedekindReals.sig_forall_dec",
"ClassicalDedekindReals.sig_not_dec",
"Classical_Prop.classic",
"FunctionalExtensionality.functional_extensionality_dep"
],
"C71_distribution_ket": [
"ClassicalDedekindReals.sig_forall_dec",
"ClassicalDedekindReals.sig_not_dec",
"Classical_Prop.classic",
"FunctionalExtensionality.functional_extensionality_dep"
],
"C71_dm": [
"ClassicalDedekindReals.sig_forall_dec",
"ClassicalDedekindReals.sig_not_dec",
"Classical_Prop.classic",
"FunctionalExtensionality.functional_extensionality_dep"
],
"C71_dm_of_ket": [
"ClassicalDedekindReals.sig_forall_dec",
"ClassicalDedekindReals.sig_not_dec",
"Classical_Prop.classic",
"FunctionalExtensionality.functional_extensionality_dep"
],
"C71_eigenstate": [
"ClassicalDedekindReals.sig_forall_dec",
"ClassicalDedekindReals.sig_not_dec",
"Classical_Prop.classic",
"FunctionalExtensionality.functional_extensionality_dep"
],
"C71_example": [
"ClassicalDedekindReals.sig_forall_dec",
"ClassicalDedekindReals.sig_not_dec",
"FunctionalExtensionality.functional_extensionality_dep"
],
"C71_kernel": [
"ClassicalDedekindReals.sig_forall_dec",
"ClassicalDedekindReals.sig_not_dec",
"Classical_Prop.classic",
"FunctionalExtensionality.functional_extensionality_dep"
],
"C71_ket": [
"ClassicalDedekindReals.sig_forall_dec",
"ClassicalDedekindReals.sig_not_dec",
"Classical_Prop.classic",
"FunctionalExtensionality.functional_extensionality_dep"
],
"C71_quadrature": [
"ClassicalDedekindReals.sig_forall_dec",
"ClassicalDedekindReals.sig_not_dec",
"Classical_Prop.classic",
"FunctionalExtensionality.functional_extensionality_dep"
],
"C71_refuted_eigenstate": [
"ClassicalDedekindReals.sig_forall_dec",
"ClassicalDedekindReals.sig_not_dec",
"Classical_Prop.classic",
"FunctionalExtensionality.functional_extensionality_dep"
],
"C71_refuted_letters": [
"ClassicalDedekindReals.sig_forall_dec",
"ClassicalDedekindReals.sig_not_dec",
"Classical_Prop.classic",
"FunctionalExtensionality.functional_extensionality_dep"
],
"C71_schroedinger": [
"ClassicalDedekindReals.sig_forall_dec",
"ClassicalDedekindReals.sig_not_dec",
"Classical_Prop.classic",
"FunctionalExtensionality.functional_extensionality_dep"
],
"C71_wavefunction": [
"ClassicalDedekindReals.sig_forall_dec",
"ClassicalDedekindReals.sig_not_dec",
"Classical_Prop.classic",
"FunctionalExtensionality.functional_extensionality_dep"
],
"C72_arrays": [
"ClassicalDedekindReals.sig_forall_dec",
"ClassicalDedekindReals.sig_not_dec",
"ClassicalEpsilon.constructive_indefinite_description",
"Classical_Prop.classic",
"FunctionalExtensionality.functional_extensionality_dep"
],
"C72_contract": [
"ClassicalDedekindReals.sig_forall_dec",
"ClassicalDedekindReals.sig_not_dec",
"ClassicalEpsilon.constructive_indefinite_description",
"Classical_Prop.classic",
"FunctionalExtensionality.functional_extensionality_dep"
],
"C72_contract_example": [
"ClassicalDedekindReals.sig_forall_dec",
"ClassicalDedekindReals.sig_not_dec",
"ClassicalEpsilon.constructive_indefinite_description",
"Classical_Prop.classic",
"FunctionalExtensionality.functional_extensionality_dep"
],
"C72_example": [
"ClassicalDedekindReals.sig_forall_dec",
"ClassicalDedekindReals.sig_not_dec",
"ClassicalEpsilon.constructive_indefinite_description",
"Classical_Prop.classic",
"FunctionalExtensionality.functional_extensionality_dep"
],
"C72_refuted_three_wires": [
"ClassicalDedekindReals.sig_forall_dec",
"ClassicalDedekindReals.sig_not_dec",
"ClassicalEpsilon.constructive_indefinite_description",
"Classical_Prop.classic",
"FunctionalExtensionality.functional_extensionality_dep"
],
"C72_trace": [
"ClassicalDedekindReals.sig_forall_dec",
"ClassicalDedekindReals.sig_not_dec",
"ClassicalEpsilon.constructive_indefinite_description",
"Classical_Prop.classic",
"FunctionalExtensionality.functional_extensionality_dep"
],
"C73_catalog": [],
"C73_lambda": [],
"C73_refuted_matrix": [],
"C73_refuted_renamed": [],
"C73_sum": [],
"C73_sum_list": [],
"C74_completely_positive": [
"ClassicalDedekindReals.sig_forall_dec",
"ClassicalDedekindReals.sig_not_dec",
"ClassicalEpsilon.constructive_indefinite_description",
"Classical_Prop.classic",
"FunctionalExtensionality.functional_extensionality_dep"
],
"C74_core": [
"ClassicalDedekindReals.sig_forall_dec",
"ClassicalDedekindReals.sig_not_dec",
"ClassicalEpsilon.constructive_indefinite_description",
"Classical_Prop.classic",
"FunctionalExtensionality.functional_extensionality_dep"
],
"C74_equal": [
"ClassicalDedekindReals.sig_forall_dec",
"ClassicalDedekindReals.sig_not_dec",
"ClassicalEpsilon.constructive_indefinite_description",
"Classical_Prop.classic",
"FunctionalExtensionality.functional_extensionality_dep"
],
"C74_example": [
"ClassicalDedekindReals.sig_forall_dec",
"ClassicalDedekindReals.sig_not_dec",
"ClassicalEpsilon.constructive_indefinite_description",
"Classical_Prop.classic",
"FunctionalExtensionality.functional_extensionality_dep"
],
"C74_recompose": [
"ClassicalDedekindReals.sig_forall_dec",
"ClassicalDedekindReals.sig_not_dec",
"ClassicalEpsilon.constructive_indefinite_description",
"Classical_Prop.classic",
"FunctionalExtensionality.functional_extensionality_dep"
],
"C74_returns": [
"ClassicalDedekindReals.sig_forall_dec",
"ClassicalDedekindReals.sig_not_dec",
"ClassicalEpsilon.constructive_indefinite_description",
"Classical_Prop.classic",
"FunctionalExtensionality.functional_extensionality_dep"
],
"C74_singular": [
"ClassicalDedekindReals.sig_forall_dec",
"ClassicalDedekindReals.sig_not_dec",
"ClassicalEpsilon.constructive_indefinite_description",
"Classical_Prop.classic",
"FunctionalExtensionality.functional_extensionality_dep"
],
"C74_trace_preserving": [
"ClassicalDedekindReals.sig_forall_dec",
"ClassicalDedekindReals.sig_not_dec",
"ClassicalEpsilon.constructive_indefinite_description",
"Classical_Prop.classic",
"FunctionalExtensionality.functional_extensionality_dep"
],
"C74_unnormalised": [
"ClassicalDedekindReals.sig_forall_dec",
"ClassicalDedekindReals.sig_not_dec",
"ClassicalEpsilon.constructive_indefinite_description",
"Classical_Prop.classic",
"FunctionalExtensionality.functional_extensionality_dep"
],
"C74_unnormalised_refuted": [
"ClassicalDedekindReals.sig_forall_dec",
"ClassicalDedekindReals.sig_not_dec",
"ClassicalEpsilon.constructive_indefinite_description",
"Classical_Prop.classic",
"FunctionalExtensionality.functional_extensionality_dep"
],
"C75_core": [
"ClassicalDedekindReals.sig_forall_dec",
"ClassicalDedekindReals.sig_not_dec",
"ClassicalEpsilon.constructive_indefinite_description",
"Classical_Prop.classic",
"FunctionalExtensionality.functional_extensionality_dep"
],
"C75_equal": [
"ClassicalDedekindReals.sig_forall_dec",
"ClassicalDedekindReals.sig_not_dec",
"ClassicalEpsilon.constructive_indefinite_description",
"Classical_Prop.classic",
"FunctionalExtensionality.functional_extensionality_dep"
],
"C75_example": [
"ClassicalDedekindReals.sig_forall_dec",
"ClassicalDedekindReals.sig_not_dec",
"ClassicalEpsilon.constructive_indefinite_description",
"Classical_Prop.classic",
"FunctionalExtensionality.functional_extensionality_dep"
],
"C75_positive": [
"ClassicalDedekindReals.sig_forall_dec",
"ClassicalDedekindReals.sig_not_dec",
"ClassicalEpsilon.constructive_indefinite_description",
"Classical_Prop.classic",
"FunctionalExtensionality.functional_extensionality_dep"
],
"C75_pure_raises": [
"ClassicalDedekindReals.sig_forall_dec",
"ClassicalDedekindReals.sig_not_dec",
"ClassicalEpsilon.constructive_indefinite_description",
"Classical_Prop.classic",
"FunctionalExtensionality.functional_extensionality_dep"
],
"C75_recompose": [
"ClassicalDedekindReals.sig_forall_dec",
"ClassicalDedekindReals.sig_not_dec",
"ClassicalEpsilon.constructive_indefinite_description",
"Classical_Prop.classic",
"FunctionalExtensionality.functional_extensionality_dep"
],
"C75_returns": [
"ClassicalDedekindReals.sig_forall_dec",
"ClassicalDedekindReals.sig_not_dec",
"ClassicalEpsilon.constructive_indefinite_description",
"Classical_Prop.classic",
"FunctionalExtensionality.functional_extensionality_dep"
],
"C75_singular": [
"ClassicalDedekindReals.sig_forall_dec",
"ClassicalDedekindReals.sig_not_dec",
"ClassicalEpsilon.constructive_indefinite_description",
"Classical_Prop.classic",
"FunctionalExtensionality.functional_extensionality_dep"
],
"C75_square_only": [],
"C75_trace_preserving": [
"ClassicalDedekindReals.sig_forall_dec",
"ClassicalDedekindReals.sig_not_dec",
"ClassicalEpsilon.constructive_indefinite_description",
"Classical_Prop.classic",
"FunctionalExtensionality.functional_extensionality_dep"
],
"C76_coherent": [
"ClassicalDedekindReals.sig_forall_dec",
"ClassicalDedekindReals.sig_not_dec",
"ClassicalEpsilon.constructive_indefinite_description",
"Classical_Prop.classic",
"FunctionalExtensionality.functional_extensionality_dep"
],
"C76_common_frame": [
"ClassicalDedekindReals.sig_forall_dec",
"ClassicalDedekindReals.sig_not_dec",
"ClassicalEpsilon.constructive_indefinite_description",
"Classical_Prop.classic",
"FunctionalExtensionality.functional_extensionality_dep"
],
"C76_fock_commuting": [
"ClassicalDedekindReals.sig_forall_dec",
"ClassicalDedekindReals.sig_not_dec",
"ClassicalEpsilon.constructive_indefinite_description",
"Classical_Prop.classic",
"FunctionalExtensionality.functional_extensionality_dep"
],
"C76_fock_invariant": [
"ClassicalDedekindReals.sig_forall_dec",
"ClassicalDedekindReals.sig_not_dec",
"ClassicalEpsilon.constructive_indefinite_description",
"Classical_Prop.classic",
"FunctionalExtensionality.functional_extensionality_dep"
],
"C76_fock_pure": [
"ClassicalDedekindReals.sig_forall_dec",
"ClassicalDedekindReals.sig_not_dec",
"ClassicalEpsilon.constructive_indefinite_description",
"Classical_Prop.classic",
"FunctionalExtensionality.functional_extensionality_dep"
],
"C76_fock_self": [
"ClassicalDedekindReals.sig_forall_dec",
"ClassicalDedekindReals.sig_not_dec",
"ClassicalEpsilon.constructive_indefinite_description",
"Classical_Prop.classic",
"FunctionalExtensionality.functional_extensionality_dep"
],
"C76_fock_symmetric": [
"ClassicalDedekindReals.sig_forall_dec",
"ClassicalDedekindReals.sig_not_dec",
"ClassicalEpsilon.constructive_indefinite_description",
"Classical_Prop.classic",
"FunctionalExtensionality.functional_extensionality_dep"
],
"C76_fock_transpose": [
"ClassicalDedekindReals.sig_forall_dec",
"ClassicalDedekindReals.sig_not_dec",
"ClassicalEpsilon.constructive_indefinite_description",
"Classical_Prop.classic",
"FunctionalExtensionality.functional_extensionality_dep"
],
"C76_invariant": [
"ClassicalDedekindReals.sig_forall_dec",
"ClassicalDedekindReals.sig_not_dec",
"ClassicalEpsilon.constructive_indefinite_description",
"Classical_Prop.classic",
"FunctionalExtensionality.functional_extensionality_dep"
],
"C76_near_pure_refuted": [
"ClassicalDedekindReals.sig_forall_dec",
"ClassicalDedekindReals.sig_not_dec",
"ClassicalEpsilon.constructive_indefinite_description",
"Classical_Prop.classic",
"FunctionalExtensionality.functional_extensionality_dep"
],
"C76_pure": [
"ClassicalDedekindReals.sig_forall_dec",
"ClassicalDedekindReals.sig_not_dec",
"ClassicalEpsilon.constructive_indefinite_description",
"Classical_Prop.classic",
"FunctionalExtensionality.functional_extensionality_dep"
],
"C76_range": [
"ClassicalDedekindReals.sig_forall_dec",
"ClassicalDedekindReals.sig_not_dec",
"ClassicalEpsilon.constructive_indefinite_description",
"Classical_Prop.classic",
"FunctionalExtensionality.functional_extensionality_dep"
],
"C76_self": [
"ClassicalDedekindReals.sig_forall_dec",
"ClassicalDedekindReals.sig_not_dec",
"ClassicalEpsilon.constructive_indefinite_description",
"Classical_Prop.classic",
"FunctionalExtensionality.functional_extensionality_dep"
],
"C76_symmetric": [
"ClassicalDedekindReals.sig_forall_dec",
"ClassicalDedekindReals.sig_not_dec",
"ClassicalEpsilon.constructive_indefinite_description",
"Classical_Prop.classic",
"FunctionalExtensionality.functional_extensionality_dep"
],
"C77_fidelity": [
"ClassicalDedekindReals.sig_forall_dec",
"ClassicalDedekindReals.sig_not_dec",
"ClassicalEpsilon.constructive_indefinite_description",
"Classical_Prop.classic",
"FunctionalExtensionality.functional_extensionality_dep"
],
"C77_overlap": [
"ClassicalDedekindReals.sig_forall_dec",
"ClassicalDedekindReals.sig_not_dec",
"ClassicalEpsilon.constructive_indefinite_description",
"Classical_Prop.classic",
"FunctionalExtensionality.functional_extensionality_dep"
],
"C77_pure": [
"ClassicalDedekindReals.sig_forall_dec",
"ClassicalDedekindReals.sig_not_dec",
"ClassicalEpsilon.constructive_indefinite_description",
"Classical_Prop.classic",
"FunctionalExtensionality.functional_extensionality_dep"
],
"C77_thermal": [
"ClassicalDedekindReals.sig_forall_dec",
"ClassicalDedekindReals.sig_not_dec",
"ClassicalEpsilon.constructive_indefinite_description",
"Classical_Prop.classic",
"FunctionalExtensionality.functional_extensionality_dep"
],
"C77_unnormalised_refuted": [
"ClassicalDedekindReals.sig_forall_dec",
"ClassicalDedekindReals.sig_not_dec",
"ClassicalEpsilon.constructive_indefinite_description",
"Classical_Prop.classic",
"FunctionalExtensionality.functional_extensionality_dep"
],
"C78_eigenvalues_exist": [
"ClassicalDedekindReals.sig_forall_dec",
"ClassicalEpsilon.constructive_indefinite_description",
"Classical_Prop.classic",
"FunctionalExtensionality.functional_extensionality_dep"
],
"C78_entropy": [
"ClassicalDedekindReals.sig_forall_dec",
"ClassicalDedekindReals.sig_not_dec",
"ClassicalEpsilon.constructive_indefinite_description",
"Classical_Prop.classic",
"FunctionalExtensionality.functional_extensionality_dep"
],
"C78_invariant": [
"ClassicalDedekindReals.sig_forall_dec",
"ClassicalDedekindReals.sig_not_dec",
"ClassicalEpsilon.constructive_indefinite_description",
"Classical_Prop.classic",
"FunctionalExtensionality.functional_extensionality_dep"
],
"C78_mixed_refuted": [
"ClassicalDedekindReals.sig_forall_dec",
"ClassicalDedekindReals.sig_not_dec",
"ClassicalEpsilon.constructive_indefinite_description",
"Classical_Prop.classic",
"FunctionalExtensionality.functional_extensionality_dep"
],
"C78_number_means": [
"ClassicalDedekindReals.sig_forall_dec",
"ClassicalDedekindReals.sig_not_dec",
"ClassicalEpsilon.constructive_indefinite_description",
"Classical_Prop.classic",
"FunctionalExtensionality.functional_extensionality_dep"
],
"C78_number_passive": [
"ClassicalDedekindReals.sig_forall_dec",
"ClassicalEpsilon.constructive_indefinite_description",
"Classical_Prop.classic",
"FunctionalExtensionality.functional_extensionality_dep"
],
"C78_product": [
"ClassicalDedekindReals.sig_forall_dec",
"ClassicalDedekindReals.sig_not_dec",
"ClassicalEpsilon.constructive_indefinite_description",
"Classical_Prop.classic",
"FunctionalExtensionality.functional_extensionality_dep"
],
"C78_product_eigenvalues": [
"ClassicalDedekindReals.sig_forall_dec",
"ClassicalDedekindReals.sig_not_dec",
"ClassicalEpsilon.constructive_indefinite_description",
"Classical_Prop.classic",
"FunctionalExtensionality.functional_extensionality_dep"
],
"C78_pure": [
"ClassicalDedekindReals.sig_forall_dec",
"ClassicalDedekindReals.sig_not_dec",
"ClassicalEpsilon.constructive_indefinite_description",
"Classical_Prop.classic",
"FunctionalExtensionality.functional_extensionality_dep"
],
"C78_pure_separable": [
"ClassicalDedekindReals.sig_forall_dec",
"ClassicalDedekindReals.sig_not_dec",
"ClassicalEpsilon.constructive_indefinite_description",
"Classical_Prop.classic",
"FunctionalExtensionality.functional_extensionality_dep"
],
"C78_symplectic_eigenvalues": [
"ClassicalDedekindReals.sig_forall_dec",
"ClassicalDedekindReals.sig_not_dec",
"ClassicalEpsilon.constructive_indefinite_description",
"Classical_Prop.classic",
"FunctionalExtensionality.functional_extensionality_dep"
],
"C78_thermal_entropy": [
"ClassicalDedekindReals.sig_forall_dec",
"ClassicalDedekindReals.sig_not_dec",
"Classical_Prop.classic",
"FunctionalExtensionality.functional_extensionality_dep"
],
"C79_amplitudes": [
"ClassicalDedekindReals.sig_forall_dec",
"ClassicalDedekindReals.sig_not_dec",
"ClassicalEpsilon.constructive_indefinite_description",
"Classical_Prop.classic",
"FunctionalExtensionality.functional_extensionality_dep"
],
"C79_close": [
"ClassicalDedekindReals.sig_forall_dec",
"ClassicalDedekindReals.sig_not_dec",
"ClassicalEpsilon.constructive_indefinite_description",
"Classical_Prop.classic",
"FunctionalExtensionality.functional_extensionality_dep"
],
"C79_coherent": [
"ClassicalDedekindReals.sig_forall_dec",
"ClassicalDedekindReals.sig_not_dec",
"ClassicalEpsilon.constructive_indefinite_description",
"Classical_Prop.classic",
"FunctionalExtensionality.functional_extensionality_dep"
],
"C79_normalised": [
"ClassicalDedekindReals.sig_forall_dec",
"ClassicalDedekindReals.sig_not_dec",
"ClassicalEpsilon.constructive_indefinite_description",
"Classical_Prop.classic",
"FunctionalExtensionality.functional_extensionality_dep"
],
"C79_zero": [
"ClassicalDedekindReals.sig_forall_dec",
"ClassicalDedekindReals.sig_not_dec",
"ClassicalEpsilon.constructive_indefinite_description",
"Classical_Prop.classic",
"FunctionalExtensionality.functional_extensionality_dep"
],
"C80_append": [],
"C80_check": [],
"C80_contract": [],
"C80_default": [],
"C80_example": [],
"C80_invalid": [],
"C80_partition": [],
"C80_path_lost": [],
"C80_prefix": [],
"C80_rshift": [],
"C80_self_pair_refuted": [],
"C81_coherent": [
"ClassicalDedekindReals.sig_forall_dec",
"ClassicalDedekindReals.sig_not_dec",
"ClassicalEpsilon.constructive_indefinite_description",
"Classical_Prop.classic",
"FunctionalExtensionality.functional_extensionality_dep"
],
"C81_compose": [
"ClassicalDedekindReals.sig_forall_dec",
"ClassicalDedekindReals.sig_not_dec",
"ClassicalEpsilon.constructive_indefinite_description",
"Classical_Prop.classic",
"FunctionalExtensionality.functional_extensionality_dep"
],
"C81_damps": [
"ClassicalDedekindReals.sig_forall_dec",
"ClassicalDedekindReals.sig_not_dec",
"ClassicalEpsilon.constructive_indefinite_description",
"Classical_Prop.classic",
"FunctionalExtensionality.functional_extensionality_dep"
],
"C81_decreases": [
"ClassicalDedekindReals.sig_forall_dec",
"ClassicalDedekindReals.sig_not_dec",
"ClassicalEpsilon.constructive_indefinite_description",
"Classical_Prop.classic",
"FunctionalExtensionality.functional_extensionality_dep"
],
"C81_example": [
"ClassicalDedekindReals.sig_forall_dec",
"ClassicalDedekindReals.sig_not_dec",
"ClassicalEpsilon.constructive_indefinite_description",
"Classical_Prop.classic",
"FunctionalExtensionality.functional_extensionality_dep"
],
"C81_not_unitary": [
"ClassicalDedekindReals.sig_forall_dec",
"ClassicalDedekindReals.sig_not_dec",
"ClassicalEpsilon.constructive_indefinite_description",
"Classical_Prop.classic",
"FunctionalExtensionality.functional_extensionality_dep"
],
"C82_channel": [
"ClassicalDedekindReals.sig_forall_dec",
"ClassicalDedekindReals.sig_not_dec",
"ClassicalEpsilon.constructive_indefinite_description",
"Classical_Prop.classic",
"FunctionalExtensionality.functional_extensionality_dep"
],
"C82_coherent": [
"ClassicalDedekindReals.sig_forall_dec",
"ClassicalDedekindReals.sig_not_dec",
"ClassicalEpsilon.constructive_indefinite_description",
"Classical_Prop.classic",
"FunctionalExtensionality.functional_extensionality_dep"
],
"C82_dilation": [
"ClassicalDedekindReals.sig_forall_dec",
"ClassicalDedekindReals.sig_not_dec",
"ClassicalEpsilon.constructive_indefinite_description",
"Classical_Prop.classic",
"FunctionalExtensionality.functional_extensionality_dep"
],
"C82_example": [
"ClassicalDedekindReals.sig_forall_dec",
"ClassicalDedekindReals.sig_not_dec",
"ClassicalEpsilon.constructive_indefinite_description",
"Classical_Prop.classic",
"FunctionalExtensionality.functional_extensionality_dep"
],
"C82_noconj": [
"ClassicalDedekindReals.sig_forall_dec",
"ClassicalDedekindReals.sig_not_dec",
"ClassicalEpsilon.constructive_indefinite_description",
"Classical_Prop.classic",
"FunctionalExtensionality.functional_extensionality_dep"
],
"C82_unchecked": [
"ClassicalDedekindReals.sig_forall_dec",
"ClassicalDedekindReals.sig_not_dec",
"ClassicalEpsilon.constructive_indefinite_description",
"Classical_Prop.classic",
"FunctionalExtensionality.functional_extensionality_dep"
],
"XY_hermitian": [
"ClassicalDedekindReals.sig_forall_dec",
"ClassicalDedekindReals.sig_not_dec",
"ClassicalEpsilon.constructive_indefinite_description",
"Classical_Prop.classic",
"FunctionalExtensionality.functional_extensionality_dep"
],
"before_total": [],
"displacement_unitary": [
"ClassicalDedekindReals.sig_forall_dec",
"ClassicalDedekindReals.sig_not_dec",
"ClassicalEpsilon.constructive_indefinite_description",
"Classical_Prop.classic",
"FunctionalExtensionality.functional_extensionality_dep"
],
"from_symplectic_unitary": [
"ClassicalDedekindReals.sig_forall_dec",
"ClassicalDedekindReals.sig_not_dec",
"ClassicalEpsilon.constructive_indefinite_description",
"Classical_Prop.classic",
"FunctionalExtensionality.functional_extensionality_dep"
],
"identity_neutral": [
"ClassicalDedekindReals.sig_forall_dec",
"ClassicalDedekindReals.sig_not_dec",
"ClassicalEpsilon.constructive_indefinite_description",
"Classical_Prop.classic",
"FunctionalExtensionality.functional_extensionality_dep"
],
"identity_unitary": [
"ClassicalDedekindReals.sig_forall_dec",
"ClassicalDedekindReals.sig_not_dec",
"ClassicalEpsilon.constructive_indefinite_description",
"Classical_Prop.classic",
"FunctionalExtensionality.functional_extensionality_dep"
],
"product_assoc": [],
"root_fun_exists": [
"ClassicalDedekindReals.sig_forall_dec",
"ClassicalDedekindReals.sig_not_dec",
"ClassicalEpsilon.constructive_indefinite_description",
"Classical_Prop.classic",
"FunctionalExtensionality.functional_extensionality_dep"
],
"squeezers_unitary": [
"ClassicalDedekindReals.sig_forall_dec",
"ClassicalDedekindReals.sig_not_dec",
"ClassicalEpsilon.constructive_indefinite_description",
"Classical_Prop.classic",
"FunctionalExtensionality.functional_extensionality_dep"
],
"traced_perm": []
}