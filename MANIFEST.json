{
 "claims": [
  {
   "property": "C01",
   "status": "proved",
   "theorems": [
    "C01_set_get_bit",
    "C01_get_bit_digit"
   ],
   "note": ""
  },
  {
   "property": "C02",
   "status": "proved",
   "theorems": [
    "C02_flip_bits_digits",
    "C02_flip_bits_involutive",
    "C02_flip_bits_panics"
   ],
   "note": ""
  },
  {
   "property": "C03",
   "status": "proved",
   "theorems": [
    "C03_extract_bits"
   ],
   "note": ""
  },
  {
   "property": "C04",
   "status": "proved",
   "theorems": [
    "C04_entwine_bits",
    "C04_entwine_reads_back",
    "C04_entwine_reads_back_off"
   ],
   "note": ""
  },
  {
   "property": "C05",
   "status": "proved",
   "theorems": [
    "C05_sub_to_full",
    "C05_full_to_sub",
    "C05_out_of_range_panics",
    "C05_select_matrix_coords"
   ],
   "note": ""
  },
  {
   "property": "C06",
   "status": "proved",
   "theorems": [
    "C06_dense_iterator",
    "C06_sparse_iterator",
    "C06_swap_iterator",
    "C06_control_iterator",
    "C06_function_iterator"
   ],
   "note": ""
  },
  {
   "property": "C07",
   "status": "proved",
   "theorems": [
    "C07_apply_op",
    "C07_apply_op_offsets",
    "C07_row",
    "C07_row_cells"
   ],
   "note": ""
  },
  {
   "property": "C08",
   "status": "proved",
   "theorems": [
    "C08_overwrite_ignores_buffer",
    "C08_overwrite_is_apply_on_zero"
   ],
   "note": ""
  },
  {
   "property": "C09",
   "status": "proved",
   "theorems": [
    "C09_swap"
   ],
   "note": ""
  },
  {
   "property": "C10",
   "status": "proved",
   "theorems": [
    "C10_control",
    "C10_control_of_control",
    "C10_nested_matrix"
   ],
   "note": ""
  },
  {
   "property": "C11",
   "status": "proved",
   "theorems": [
    "C11_input_chunks",
    "C11_output_chunks"
   ],
   "note": ""
  },
  {
   "property": "C12",
   "status": "partial",
   "theorems": [
    "C12_tensor_refuted",
    "C12_empty_refuted",
    "C12_zero_row_refuted",
    "C12_no_ops",
    "C12_no_ops_gap",
    "C12_single_op",
    "C12_actual_matrix",
    "C12_actual_windows"
   ],
   "note": "REFUTED as stated: with two or more ops the row digits are taken in the wrong order, so the result is not the tensor product (C12_tensor_refuted); with no ops the input is copied instead of added (C12_empty_refuted); an all-zero row panics (C12_zero_row_refuted). Proved: one op is right (C12_single_op), the exact behaviour with no ops, and for two or more disjoint ops the exact outcome: an index panic iff some op has a row without entries, otherwise the exact matrix applied (C12_actual_matrix), also on windows and with shared indices (C12_actual_windows)."
  },
  {
   "property": "C13",
   "status": "proved",
   "theorems": [
    "C13_multi_iterator",
    "C13_product",
    "C13_product_length"
   ],
   "note": ""
  },
  {
   "property": "C14",
   "status": "proved",
   "theorems": [
    "C14_rows_any_order",
    "C14_overwrite_rows_any_order",
    "C14_sum_any_tree",
    "C14_apply_op_any_numbers",
    "C14_apply_ops_any_numbers",
    "C14_collapse_any_order",
    "C14_probabilities_any_order",
    "C14_float_sum_depends"
   ],
   "note": ""
  },
  {
   "property": "C15",
   "status": "proved",
   "theorems": [
    "C15_transpose_any_schedule",
    "C15_column_entries",
    "C15_schedule_independent",
    "C15_sequential"
   ],
   "note": ""
  },
  {
   "property": "C16",
   "status": "proved",
   "theorems": [
    "C16_invert_op_entries",
    "C16_invert_op_adjoint",
    "C16_invert_twice"
   ],
   "note": ""
  },
  {
   "property": "C17",
   "status": "proved",
   "theorems": [
    "C17_norm_preserved",
    "C17_inverse_restores",
    "C17_swap_unitary",
    "C17_control_unitary"
   ],
   "note": ""
  },
  {
   "property": "C18",
   "status": "proved",
   "theorems": [
    "C18_make_matrix_op",
    "C18_make_sparse_matrix_op",
    "C18_make_swap_op",
    "C18_make_control_op",
    "C18_no_panic_matrix",
    "C18_no_panic_sparse"
   ],
   "note": ""
  },
  {
   "property": "C19",
   "status": "proved",
   "theorems": [
    "C19_little_endian_acts_reversed",
    "C19_from_function_agrees"
   ],
   "note": ""
  },
  {
   "property": "C20",
   "status": "proved",
   "theorems": [
    "C20_measure_prob_born"
   ],
   "note": ""
  },
  {
   "property": "C21",
   "status": "proved",
   "theorems": [
    "C21_measure_probs_distribution",
    "C21_prob_magnitude"
   ],
   "note": ""
  },
  {
   "property": "C22",
   "status": "proved",
   "theorems": [
    "C22_collapsed_state",
    "C22_collapse_normalised",
    "C22_collapse_chunks",
    "C22_measure",
    "C22_measure_requested"
   ],
   "note": ""
  },
  {
   "property": "C23",
   "status": "proved",
   "theorems": [
    "C23_outcome_distribution",
    "C23_outcome_distribution_chunk",
    "C23_draw_selects"
   ],
   "note": ""
  },
  {
   "property": "C24",
   "status": "partial",
   "theorems": [
    "C24_never_impossible_refuted",
    "C24_positive_draw_possible"
   ],
   "note": "REFUTED: a draw of exactly 0 (possible, the draw is in [0,1)) returns an outcome of probability 0 when the first basis states have amplitude 0. Proved: every positive draw returns a possible outcome."
  },
  {
   "property": "C25",
   "status": "proved",
   "theorems": [
    "C25_chunks_add_up"
   ],
   "note": ""
  },
  {
   "property": "C26",
   "status": "proved",
   "theorems": [
    "C26_register_fresh",
    "C26_qudit_zero",
    "C26_qudit_is_register",
    "C26_words"
   ],
   "note": ""
  },
  {
   "property": "C27",
   "status": "proved",
   "theorems": [
    "C27_no_cloning",
    "C27_repeated_position_clones"
   ],
   "note": ""
  },
  {
   "property": "C28",
   "status": "proved",
   "theorems": [
    "C28_split_relative",
    "C28_nothing_lost",
    "C28_merge_concatenates",
    "C28_split_all_merge",
    "C28_split_first_last"
   ],
   "note": ""
  },
  {
   "property": "C29",
   "status": "partial",
   "theorems": [
    "C29_out_of_range_ignored_refuted",
    "C29_position_len_panics",
    "C29_out_of_range_ignored_partial"
   ],
   "note": "REFUTED: a position equal to r.n() panics. Proved: C29_position_len_panics for every such call; all other out-of-range positions are ignored (C29_out_of_range_ignored_partial)."
  },
  {
   "property": "C30",
   "status": "partial",
   "theorems": [
    "C30_split_absolute_refuted",
    "C30_what_it_does",
    "C30_split_absolute_partial"
   ],
   "note": "REFUTED: absolute indices are used as positions. C30_what_it_does states the actual behaviour; the claim holds for registers 0..n (C30_split_absolute_partial)."
  },
  {
   "property": "C31",
   "status": "proved",
   "theorems": [
    "C31_index_groups",
    "C31_ranges"
   ],
   "note": ""
  },
  {
   "property": "C32",
   "status": "proved",
   "theorems": [
    "C32_broadcast",
    "C32_whole_register",
    "C32_wrong_size"
   ],
   "note": ""
  },
  {
   "property": "C33",
   "status": "proved",
   "theorems": [
    "C33_append_only"
   ],
   "note": ""
  },
  {
   "property": "C34",
   "status": "partial",
   "theorems": [
    "C34_measurement_handle_partial",
    "C34_stochastic_handle_partial",
    "C34_replayed_measurement_refuted"
   ],
   "note": "REFUTED when a recorded subcircuit that contains a measurement is replayed: results shift and the getter reaches unreachable!(). Proved for all histories without such replays, for both kinds of handle."
  },
  {
   "property": "C35",
   "status": "proved",
   "theorems": [
    "C35_initial_state",
    "C35_measure_initial",
    "C35_measure_initial_runs"
   ],
   "note": ""
  },
  {
   "property": "C36",
   "status": "proved",
   "theorems": [
    "C36_simulation_product"
   ],
   "note": ""
  },
  {
   "property": "C37",
   "status": "proved",
   "theorems": [
    "C37_normalised"
   ],
   "note": ""
  },
  {
   "property": "C38",
   "status": "partial",
   "theorems": [
    "C38_phase_refuted",
    "C38_phase_undoes_previous_gate",
    "C38_phase_pair_partial"
   ],
   "note": "REFUTED: the simulator discards the entry before a global phase (the buffers are swapped without being written). C38_phase_undoes_previous_gate states this for every circuit; an adjacent pair of phases is harmless (C38_phase_pair_partial)."
  },
  {
   "property": "C39",
   "status": "partial",
   "theorems": [
    "C39_stochastic_refuted",
    "C39_stochastic_undoes_previous_gate"
   ],
   "note": "REFUTED for the same reason as C38; C39_stochastic_undoes_previous_gate is general."
  },
  {
   "property": "C40",
   "status": "proved",
   "theorems": [
    "C40_gates",
    "C40_cnot",
    "C40_cnot_one_control",
    "C40_daggers_undo"
   ],
   "note": ""
  },
  {
   "property": "C41",
   "status": "proved",
   "theorems": [
    "C41_swap",
    "C41_swap_sizes"
   ],
   "note": ""
  },
  {
   "property": "C42",
   "status": "proved",
   "theorems": [
    "C42_toffoli"
   ],
   "note": ""
  },
  {
   "property": "C43",
   "status": "partial",
   "theorems": [
    "C43_toffoli_multi_exact",
    "C43_toffoli_multi_partial",
    "C43_toffoli_multi_refuted"
   ],
   "note": "REFUTED: with two or more controls and t targets there is a phase (-i)^(t-1) where the controls hold. C43_toffoli_multi_exact states the effect for all sizes; the claim holds for one control, one target or t = 4k+1."
  },
  {
   "property": "C44",
   "status": "partial",
   "theorems": [
    "C44_rz_partial",
    "C44_rz_refuted"
   ],
   "note": "REFUTED for registers of two or more qubits: the call succeeds and every later simulation panics (C44_rz_refuted, all sizes). Proved for one qubit."
  },
  {
   "property": "C45",
   "status": "partial",
   "theorems": [
    "C45_rx",
    "C45_rx_ratio",
    "C45_ry_opposite",
    "C45_ry_ratio",
    "C45_ry_refuted"
   ],
   "note": "REFUTED for ry: it turns by -theta (C45_ry_opposite is exact for all theta). rx is right. ry_ratio turns by +theta, so it disagrees with ry."
  },
  {
   "property": "C46",
   "status": "partial",
   "theorems": [
    "C46_rz_pi_by_exact",
    "C46_rx_ry_pi_by_exact",
    "C46_zero_partial",
    "C46_rx_ry_zero_panic",
    "C46_min_panic",
    "C46_rz_pi_by_refuted"
   ],
   "note": "REFUTED: the angle is 1/m, not pi/m (C46_rz_pi_by_exact for every m). m = 0 is Err for rz_pi_by, but rx_pi_by and ry_pi_by panic; i64::MIN panics."
  },
  {
   "property": "C47",
   "status": "partial",
   "theorems": [
    "C47_conditioned_gates_partial",
    "C47_conditioned_cnot",
    "C47_conditioned_swap",
    "C47_conditioned_y_exact",
    "C47_conditioned_h_exact",
    "C47_conditioned_y_refuted",
    "C47_conditioned_h_refuted"
   ],
   "note": "REFUTED for y (a controlled -Y) and h (a controlled sin(1/4) Z + cos(1/4) X); both exact effects are proved at every depth. The claim is proved for x, z, s, t, cnot and swap."
  },
  {
   "property": "C48",
   "status": "partial",
   "theorems": [
    "C48_rotations_ignore_condition",
    "C48_conditioned_rotation_refuted"
   ],
   "note": "REFUTED: rotations ignore the condition; C48_rotations_ignore_condition states the exact effect."
  },
  {
   "property": "C49",
   "status": "proved",
   "theorems": [
    "C49_nested_gates",
    "C49_one_more_wrapper",
    "C49_one_more_wrapper_cnot",
    "C49_any_nesting",
    "C49_as_one"
   ],
   "note": ""
  },
  {
   "property": "C50",
   "status": "partial",
   "theorems": [
    "C50_failure_loses_condition",
    "C50_condition_recoverable_refuted",
    "C50_early_errors_partial"
   ],
   "note": "REFUTED: after any Err from a conditioned object or subcircuit dissolve() panics (C50_failure_loses_condition, all failures). Errors found before the object is handed on do no harm (C50_early_errors_partial)."
  },
  {
   "property": "C51",
   "status": "partial",
   "theorems": [
    "C51_inverse",
    "C51_simulated",
    "C51_measurement_is_error",
    "C51_with_phases_partial",
    "C51_phases_simulated_refuted"
   ],
   "note": "REFUTED only for circuits with global phases, and only because the simulator mishandles phases (C38): the inverted objects are right (C51_with_phases_partial). Proved for every circuit without phases, through the simulator; measurements are Err."
  },
  {
   "property": "C52",
   "status": "proved",
   "theorems": [
    "C52_objects_replayed",
    "C52_effect",
    "C52_export_and_apply"
   ],
   "note": ""
  },
  {
   "property": "C53",
   "status": "partial",
   "theorems": [
    "C53_empty_refuted",
    "C53_last_untouched_refuted",
    "C53_inverter_refuted",
    "C53_applies_partial"
   ],
   "note": "REFUTED: empty circuits and circuits that leave the last qubit of the register untouched panic (both for all sizes). Proved to succeed for all other circuits."
  },
  {
   "property": "C54",
   "status": "proved",
   "theorems": [
    "C54_inverter",
    "C54_undoes"
   ],
   "note": ""
  },
  {
   "property": "C55",
   "status": "partial",
   "theorems": [
    "C55_carry",
    "C55_carry_inv",
    "C55_carry_inv_conditioned_refuted",
    "C55_sum",
    "C55_copy",
    "C55_copy_total",
    "C55_copy_sizes"
   ],
   "note": "carry, sum and copy proved at every condition depth, carry_inv on an unconditioned builder. REFUTED for carry_inv on a conditioned builder, whose exact effect is proved at every depth."
  },
  {
   "property": "C56",
   "status": "partial",
   "theorems": [
    "C56_add",
    "C56_add_inv",
    "C56_add_small",
    "C56_conditioned_exact",
    "C56_conditioned_refuted",
    "C56_add_inv_conditioned_exact",
    "C56_add_inv_conditioned_refuted",
    "C56_total",
    "C56_sizes"
   ],
   "note": "add and add_inv proved for every size on an unconditioned builder, and add for one-qubit operands at every depth. REFUTED for two or more qubits under a condition: amplitude sin(1/2)^(inner carries), proved exactly. add_inv under a condition is REFUTED already for one-qubit operands: exact amplitude sin(1/2)^(2*inner carries + top carry), for every size and depth."
  },
  {
   "property": "C57",
   "status": "partial",
   "theorems": [
    "C57_rshift",
    "C57_lshift",
    "C57_total",
    "C57_lshift_single_refuted"
   ],
   "note": "Proved for all sizes, except that lshift on one qubit panics (REFUTED there)."
  },
  {
   "property": "C58",
   "status": "partial",
   "theorems": [
    "C58_inverse_adjoint",
    "C58_add_mod_exact",
    "C58_add_mod_partial",
    "C58_simulated",
    "C58_refuted",
    "C58_sizes",
    "C58_inverse_total",
    "C58_total",
    "C58_inverse_sizes",
    "C58_inverse_exact",
    "C58_inverse_partial",
    "C58_inverse_simulated",
    "C58_inverse_refuted"
   ],
   "note": "REFUTED for every size from 2 up (0 + 0 mod 3). C58_add_mod_exact gives the amplitude at the right answer for all sizes and inputs; C58_add_mod_partial proves the claim on all superpositions of inputs that lose no place, in particular for one-qubit operands. add_mod_inv is wrong on the same inputs (C58_inverse_refuted): from (a+b) mod M the amplitude at b is sin(1/2) to the number of places lost (C58_inverse_exact), and on every state the amplitude of (a+b) mod M arrives at b where no place is lost (C58_inverse_partial). add_mod_inv is the adjoint of add_mod on all inputs (C58_inverse_adjoint)."
  },
  {
   "property": "C59",
   "status": "proved",
   "theorems": [
    "C59_mask_selects",
    "C59_no_mask",
    "C59_one_value",
    "C59_no_condition_left",
    "C59_ops_wrap"
   ],
   "note": ""
  },
  {
   "property": "C60",
   "status": "proved",
   "theorems": [
    "C60_routing",
    "C60_program",
    "C60_misuse_panics"
   ],
   "note": ""
  },
  {
   "property": "C61",
   "status": "partial",
   "theorems": [
    "C61_qfft_exact",
    "C61_simulated",
    "C61_qfft_partial",
    "C61_refuted",
    "C61_large_panic",
    "C61_conditioned_exact",
    "C61_conditioned_simulated",
    "C61_conditioned_refuted",
    "C61_conditioned_idle_refuted"
   ],
   "note": "REFUTED for every size from 2 to 63, under any reading order of the qubits and up to any factor per input; panics from 64 up. C61_qfft_exact gives the amplitudes for all sizes up to 63; the claim holds for one qubit. On conditioned builders exact at every depth and REFUTED for every size from 1 to 63: amplitudes of sin(1/4) and cos(1/4) where the condition holds, and rotations where it does not."
  },
  {
   "property": "C62",
   "status": "partial",
   "theorems": [
    "C62_equivalence",
    "C62_same",
    "C62_hash_partial",
    "C62_hash_exact",
    "C62_refuted",
    "C62_ratio_hash",
    "C62_ratio_writes",
    "C62_writes_determine"
   ],
   "note": "REFUTED: 0.0 and -0.0 are equal and hash differently; NaN is not equal to itself. Both failures are characterised exactly; the contract is proved for objects without zero floats. Objects without NaN that write the same are equal, for displays that tell floats apart (C62_writes_determine, with the writes of num_rational). Otherwise the display of floats and the hash of Ratio<i64> are parameters."
  },
  {
   "property": "C63",
   "status": "proved",
   "theorems": [
    "C63_reachable_tidy",
    "C63_simulated",
    "C63_simulated_fresh",
    "C63_sequence"
   ],
   "note": ""
  },
  {
   "property": "C64",
   "status": "partial",
   "theorems": [
    "C64_conditioned_register_exact",
    "C64_conditioned_register_partial",
    "C64_conditioned_s_t_register_exact",
    "C64_conditioned_register_refuted",
    "C64_conditioned_s_t_every_depth"
   ],
   "note": "REFUTED: with two or more condition qubits x, y, z pick up a phase, and s, t condition on the first qubits of their own register and return other registers. Exact effects proved for every size and depth."
  },
  {
   "property": "C65",
   "status": "partial",
   "theorems": [
    "C65_conditioned_matrix_refuted"
   ],
   "note": "REFUTED: todo!() is reached, for every matrix and depth."
  },
  {
   "property": "C66",
   "status": "partial",
   "theorems": [
    "C66_conditioned_subcircuit_partial",
    "C66_apply_conditioned_partial",
    "C66_inverter_partial",
    "C66_conditioned_subcircuit_exact",
    "C66_apply_conditioned_exact",
    "C66_conditioned_h_refuted",
    "C66_conditioned_rz_exact",
    "C66_any_circuit_exact",
    "C66_swap_object_fails"
   ],
   "note": "REFUTED for h, y and rz objects. Exact effect proved for every circuit of x, y, z, h, s, t, cnot and rz objects at every depth, also when it leaves its temporaries dirty; swap objects always fail; the claim proved for circuits of x, z, s, t, cnot objects, also through inverter."
  },
  {
   "property": "C67",
   "status": "partial",
   "theorems": [
    "C67_make_op_matrix",
    "C67_inverted_table",
    "C67_words_partial",
    "C67_from_31_qubits_refuted"
   ],
   "note": "Proved without bounds on indices and, on words, for up to 30 qubits in both builds. REFUTED from 31 to 63 qubits: the zero vector is made by (0..1 << n).map(|_| ..), whose range is one of i32, so it has too few entries or the shift overflows, and the call panics in both builds. That the type is i32 is the fallback rule of the language for integer literals, read off the source."
  },
  {
   "property": "C68",
   "status": "proved",
   "theorems": [
    "C68_apply_matrix",
    "C68_simulated",
    "C68_wrong_size"
   ],
   "note": ""
  },
  {
   "property": "C69",
   "status": "partial",
   "theorems": [
    "C69_broadcast_refuted",
    "C69_broadcast_partial"
   ],
   "note": "REFUTED for every register of two or more qubits: the object is given the size of the register, so every later simulation panics. Proved for one qubit."
  },
  {
   "property": "C70",
   "status": "proved",
   "theorems": [
    "C70_default_gates",
    "C70_default_cnot"
   ],
   "note": ""
  },
  {
   "property": "C71",
   "status": "partial",
   "theorems": [
    "C71_inverse_adjoint",
    "C71_times_mod_total",
    "C71_times_mod_exact",
    "C71_refuted",
    "C71_sizes",
    "C71_inverse_exact",
    "C71_inverse_refuted"
   ],
   "note": "Totality and register conservation are proved for all sizes at all depths. The value is REFUTED for every n and k (0 * 0 mod 2^(n-1)): the amplitude at the right answer is sin(1/2)^k through the simulator, because conditioned add_inv does not undo conditioned add; for times_mod_inv on the same inputs likewise (C71_inverse_refuted). times_mod_inv is the adjoint of times_mod on all inputs (C71_inverse_adjoint). The value on other inputs is not characterised."
  },
  {
   "property": "C72",
   "status": "partial",
   "theorems": [
    "C72_inverse_adjoint",
    "C72_square_mod_total",
    "C72_square_mod_exact",
    "C72_refuted",
    "C72_sizes",
    "C72_inverse_exact",
    "C72_inverse_refuted"
   ],
   "note": "Totality, register conservation and unchanged idle qubits are proved for all n at all depths. The value is REFUTED for every n (a = 0, M = 2^(n-1), any s < M): the amplitude at the right answer is sin(1/2)^n through the simulator, inherited from times_mod; for square_mod_inv on the same inputs likewise (C72_inverse_refuted). square_mod_inv is the adjoint of square_mod on all inputs (C72_inverse_adjoint). The value on other inputs is not characterised."
  },
  {
   "property": "C73",
   "status": "partial",
   "theorems": [
    "C73_recorded",
    "C73_zero_panics",
    "C73_conditioned_phase_exact",
    "C73_simulated_no_effect",
    "C73_refuted"
   ],
   "note": "REFUTED: what is appended turns the condition by theta/2 instead of theta, and when simulated it has no effect at all for any angle, depth and start state (C73_simulated_no_effect), since the global phase object discards the Rz before it (C38). Registers, wrappers and temporaries come back. C73_recorded: what the three calls record; apply_global_phase_pi_by m, documented as pi/m, records the rational 1/m, and where the simulation reads a rational, in an Rz, it takes it as the angle itself, without pi."
  },
  {
   "property": "C74",
   "status": "partial",
   "theorems": [
    "C74_inverse_adjoint",
    "C74_exp_mod_total",
    "C74_inverses_total",
    "C74_exp_mod_exact",
    "C74_refuted",
    "C74_sizes",
    "C74_exp_mod_inverse_total",
    "C74_inverse_exact",
    "C74_inverse_refuted",
    "C74_inverse_sizes"
   ],
   "note": "Termination, totality and register conservation are proved for all n, all exponent sizes and all depths, also for times_mod_inv, square_mod_inv and exp_mod_inv. The value is REFUTED for every n with one exponent qubit (b = 1, a = p = 0, M = 2^(n-1)): the amplitude at the right answer is sin(1/2)^(2(n+1)) through the simulator, and likewise on a conditioned builder whose conditions hold, and for exp_mod_inv (C74_inverse_refuted). exp_mod_inv is the adjoint of exp_mod on all inputs and for all exponent sizes (C74_inverse_adjoint). For more exponent qubits the amplitudes are not characterised; there the lines are wrong in themselves, whatever gates they call do (C111_exp_mod_exact)."
  },
  {
   "property": "C75",
   "status": "partial",
   "theorems": [
    "C75_program_means",
    "C75_terminates",
    "C75_nested_groups_panic",
    "C75_no_lines_panics",
    "C75_semicolon_refuted",
    "C75_repeated_panics",
    "C75_repeated_unnoticed_refuted",
    "C75_repeated_never_runs"
   ],
   "note": "Proved for every program in the documented syntax, with the meaning in terms of ProgramModel (C59, C60); the macro terminates on every token sequence; nested groups and programs without lines panic. REFUTED only for tokens that are ignored: whatever follows a semicolon inside a bracketed group is dropped silently (C75_semicolon_refuted, for all programs), and for a register listed twice: the macro reports it only when the two stand next to each other (C75_repeated_panics, C75_repeated_unnoticed_refuted); rustc then rejects the generated code (C75_repeated_never_runs)."
  },
  {
   "property": "C76",
   "status": "partial",
   "theorems": [
    "C76_invert_means",
    "C76_visibility_refuted",
    "C76_generics_refuted"
   ],
   "note": "Proved for every function whose head has no identifier followed by a parenthesis and whose generics have no parentheses. REFUTED otherwise: pub(crate) functions and generics with Fn(..) bounds make the macro panic."
  },
  {
   "property": "C77",
   "status": "proved",
   "theorems": [
    "C77_float_close",
    "C77_not_exact"
   ],
   "note": "Proved for all formats with prec, emax >= 8 (f32 and f64 among them) and every platform accurate to d <= 1/5; a platform accurate to 4u is constructed. Matrices must have orthonormal columns and rows. Global phases and measurements are outside this theorem (measurements: C81). C77_not_exact: the bound cannot be replaced by equality (two Hadamards in f64)."
  },
  {
   "property": "C78",
   "status": "proved",
   "theorems": [
    "C78_float_exact"
   ],
   "note": "Proved for all formats with prec, emax >= 8."
  },
  {
   "property": "C79",
   "status": "partial",
   "theorems": [
    "C79_total",
    "C79_possible",
    "C79_refuted"
   ],
   "note": "Totality is proved for all floats. On finite states of norm at most 2 the outcome of a positive draw has positive computed probability or is 0. REFUTED in full: in f32, x q0; h q1; measure q0 with a draw that rounds to 1.0 reports outcome 0 with probability 0 and continues from a stale buffer."
  },
  {
   "property": "C80",
   "status": "proved",
   "theorems": [
    "C80_any_order",
    "C80_run"
   ],
   "note": "Proved for every reduction tree; the run theorem is for a stochastic measurement at the end of a circuit of gates (C39 refutes later gates)."
  },
  {
   "property": "C81",
   "status": "proved",
   "theorems": [
    "C81_tracks"
   ],
   "note": "Proved for prec >= 8, prec + 2 <= emax (f32 and f64 among them). Draws inside the margin are not covered; stochastic measurements, matrix objects on two or more qubits and global phases are not covered."
  },
  {
   "property": "C82",
   "status": "proved",
   "theorems": [
    "C82_run",
    "C82_run_unique"
   ],
   "note": "Proved for every kind of entry, with the behaviour C38 and C39 refute (a global phase or a stochastic measurement brings back the state before the last entry) as the actual step."
  },
  {
   "property": "C83",
   "status": "proved",
   "theorems": [
    "C83_joint",
    "C83_reported"
   ],
   "note": "Global phases and stochastic measurements excluded (C38, C39). C83_reported needs positive draws: a draw of exactly 0 can report an outcome of probability 0 (C24)."
  },
  {
   "property": "C84",
   "status": "proved",
   "theorems": [
    "C84_twice"
   ],
   "note": "Positive draws (see C24)."
  },
  {
   "property": "C85",
   "status": "partial",
   "theorems": [
    "C85_never_panics",
    "C85_exactly",
    "C85_simulation_panics_refuted"
   ],
   "note": "Proved for histories with fitting objects (careful, ShapeSpec.v). REFUTED without that: h on two or more qubits under a condition, a rotation of two qubits and toffoli with several controls and targets under a condition are accepted, and every later simulation panics."
  },
  {
   "property": "C86",
   "status": "proved",
   "theorems": [
    "C86_measured_calls",
    "C86_stochastic_calls"
   ],
   "note": ""
  },
  {
   "property": "C87",
   "status": "proved",
   "theorems": [
    "C87_cswap"
   ],
   "note": ""
  },
  {
   "property": "C88",
   "status": "partial",
   "theorems": [
    "C88_conditioned_toffoli_exact",
    "C88_conditioned_toffoli_partial",
    "C88_conditioned_toffoli_refuted",
    "C88_conditioned_toffoli_three_exact"
   ],
   "note": "REFUTED for two controls under one condition: the target is not flipped but tilted by sin(1/2) X - cos(1/2) Z, so it stays 0 with probability cos^2(1/2) > 3/4. Exact effect proved for two controls and for three controls (temporary included) at every depth; the claim proved for one control at every depth."
  },
  {
   "property": "C89",
   "status": "partial",
   "theorems": [
    "C89_documented_lines_partial",
    "C89_documented_program_exact",
    "C89_documented_control_refuted",
    "C89_handing_back",
    "C89_macro_example"
   ],
   "note": "REFUTED for the control lines, through C88: the documented outcome has probability sin^2(1/2) < 1/4. Exact effect of the whole program proved; the claim proved for the lines without control."
  },
  {
   "property": "C90",
   "status": "proved",
   "theorems": [
    "C90_inverse",
    "C90_arguments",
    "C90_inverse_any_split"
   ],
   "note": ""
  },
  {
   "property": "C91",
   "status": "partial",
   "theorems": [
    "C91_simple_probabilities",
    "C91_simple_state_refuted"
   ],
   "note": "Probabilities proved. REFUTED for the state: the stochastic measurement undoes the controlled not (C39), the state printed is (|0>+|1>)|0>/sqrt 2."
  },
  {
   "property": "C92",
   "status": "proved",
   "theorems": [
    "C92_float_calls",
    "C92_float_probabilities",
    "C92_float_add"
   ],
   "note": ""
  },
  {
   "property": "C93",
   "status": "proved",
   "theorems": [
    "C93_toffoli_cost",
    "C93_no_new_qubits",
    "C93_toffoli_sequence",
    "C93_conditioned_gate_cost",
    "C93_conditioned_cnot_cost"
   ],
   "note": ""
  },
  {
   "property": "C94",
   "status": "proved",
   "theorems": [
    "C94_add_cost",
    "C94_add_inv_cost",
    "C94_inverse_longer"
   ],
   "note": ""
  },
  {
   "property": "C95",
   "status": "proved",
   "theorems": [
    "C95_subcircuit_cost",
    "C95_conditioned_subcircuit_cost",
    "C95_inverse_size",
    "C95_inverse_bound",
    "C95_depth",
    "C95_depth_object"
   ],
   "note": ""
  },
  {
   "property": "C96",
   "status": "proved",
   "theorems": [
    "C96_never_empty",
    "C96_selected"
   ],
   "note": ""
  },
  {
   "property": "C97",
   "status": "proved",
   "theorems": [
    "C97_outcome",
    "C97_lost_condition"
   ],
   "note": ""
  },
  {
   "property": "C98",
   "status": "proved",
   "theorems": [
    "C98_untouched",
    "C98_dropped",
    "C98_no_signalling"
   ],
   "note": ""
  },
  {
   "property": "C99",
   "status": "proved",
   "theorems": [
    "C99_same_state",
    "C99_same_distribution"
   ],
   "note": ""
  },
  {
   "property": "C100",
   "status": "partial",
   "theorems": [
    "C100_temporaries_zero_partial",
    "C100_temporaries_zero_refuted"
   ],
   "note": "REFUTED for toffoli with three controls under a condition: its temporary goes back to the pool while it is 1 with probability > 1/2, although the program gave nothing back itself. Proved for every history whose returned temporaries are 0 and which makes, under conditions, no toffoli with three or more controls and no conditioned global phase, with subcircuits and inverted functions that leave the pool at 0."
  },
  {
   "property": "C101",
   "status": "partial",
   "theorems": [
    "C101_circuit_matrix_refuted",
    "C101_rows",
    "C101_circuit_matrix_partial",
    "C101_reversed_rows",
    "C101_orthonormal",
    "C101_product"
   ],
   "note": "REFUTED: the rows are in bit-reversed order; the matrix of the circuit without objects on two qubits is not the identity (entry [1][1] is 0, entry [1][2] is 1). The rows proved exactly for every register; the claim proved when the register lists the qubits from the last to the first; for qubits in order row i is that of the bit-reversed i; orthonormality proved in every case, the product for the reversed register."
  },
  {
   "property": "C102",
   "status": "proved",
   "theorems": [
    "C102_oracle_row",
    "C102_oracle_symmetric",
    "C102_oracle_panics"
   ],
   "note": ""
  },
  {
   "property": "C103",
   "status": "proved",
   "theorems": [
    "C103_same_calls",
    "C103_absolute_differs",
    "C103_product_state",
    "C103_independent"
   ],
   "note": ""
  },
  {
   "property": "C104",
   "status": "proved",
   "theorems": [
    "C104_bit_functions",
    "C104_apply",
    "C104_apply_matrix",
    "C104_measure",
    "C104_simulation",
    "C104_histories",
    "C104_state",
    "C104_too_many_debug",
    "C104_too_many_release",
    "C104_x_on_64_release",
    "C104_matrix_of_one_entry",
    "C104_constructors",
    "C104_nested_control",
    "C104_swap_assertion",
    "C104_operators_at_once",
    "C104_operators_matrix",
    "C104_function_operator",
    "C104_sparse_operators",
    "C104_sparse_no_qubits",
    "C104_invert"
   ],
   "note": ""
  },
  {
   "property": "C105",
   "status": "proved",
   "theorems": [
    "C105_same_calls",
    "C105_state",
    "C105_distribution",
    "C105_allocation_order"
   ],
   "note": ""
  },
  {
   "property": "C106",
   "status": "proved",
   "theorems": [
    "C106_apart",
    "C106_rearranged",
    "C106_exchanged",
    "C106_initial"
   ],
   "note": ""
  },
  {
   "property": "C107",
   "status": "proved",
   "theorems": [
    "C107_put_off",
    "C107_controls"
   ],
   "note": ""
  },
  {
   "property": "C108",
   "status": "proved",
   "theorems": [
    "C108_matrix",
    "C108_sparse",
    "C108_swap",
    "C108_swap_lengths",
    "C108_control",
    "C108_control_checked"
   ],
   "note": ""
  },
  {
   "property": "C109",
   "status": "proved",
   "theorems": [
    "C109_debug",
    "C109_release",
    "C109_places",
    "C109_release_matrix",
    "C109_one_outside",
    "C109_control_outside",
    "C109_flip"
   ],
   "note": ""
  },
  {
   "property": "C110",
   "status": "proved",
   "theorems": [
    "C110_tells",
    "C110_panics",
    "C110_qubits",
    "C110_constructors",
    "C110_swap",
    "C110_new_control"
   ],
   "note": ""
  },
  {
   "property": "C111",
   "status": "partial",
   "theorems": [
    "C111_lines_add_mod",
    "C111_lines_times_mod",
    "C111_lines_square_mod",
    "C111_lines_exp_mod",
    "C111_add_mod",
    "C111_times_mod",
    "C111_square_mod",
    "C111_nested",
    "C111_exp_mod_exact",
    "C111_exp_mod_one",
    "C111_exp_mod_refuted"
   ],
   "note": "Proved for add_mod, times_mod and square_mod, all sizes and values: what is wrong with them when run (C71, C72) comes from the gates under conditions and not from their lines. REFUTED for exp_mod with two or more exponent qubits: the line control times_mod rb[0], ra, rp, rm, re (arithmetic.rs:327) multiplies into re, where the other branch writes rv, and is undone afterwards (arithmetic.rs:331), so that the result is 0 whenever any exponent qubit but the last is 1 (C111_exp_mod_exact); right with one exponent qubit. C111_lines_* say that the texts read are those of the model."
  },
  {
   "property": "C112",
   "status": "proved",
   "theorems": [
    "C112_documented_sized",
    "C112_parts",
    "C112_program",
    "C112_program_example"
   ],
   "note": "C112_program is about any functions and any meanings; C112_parts gives the functions of arithmetic.rs that have their documented meaning, C112_program_example a program of four such lines, of any size. Functions with no meaning on some input (None) make no claim there."
  },
  {
   "property": "C113",
   "status": "proved",
   "theorems": [
    "C113_dense",
    "C113_dense_table",
    "C113_control",
    "C113_any"
   ],
   "note": "Consecutive qubits in increasing order; other index lists are covered by C07 and C67 in terms of bits. Data in make_op_matrix comes out exchanged because row i is the image of basis state i."
  },
  {
   "property": "C114",
   "status": "partial",
   "theorems": [
    "C114_kron_helper",
    "C114_matrix_tests",
    "C114_iterator_tests",
    "C114_multi_iterator_tests",
    "C114_state_ops_tests",
    "C114_doc_tests",
    "C114_measurement_tests",
    "C114_soft_measure_partial",
    "C114_soft_measure_refuted"
   ],
   "note": "REFUTED as stated (see the _refuted theorem); C114_soft_measure_refuted: the documented assertion fails for the draw 0 (the scan stops at index 0 whatever is there); C114_soft_measure_partial has all other draws. Compile-time attributes and the tests commented out in inverter.rs and arithmetic.rs are not included; the latter functions have their own properties."
  },
  {
   "property": "C115",
   "status": "proved",
   "theorems": [
    "C115_table_acts_alike",
    "C115_product",
    "C115_same_entries"
   ],
   "note": "Exact arithmetic; in floating point the product rounds differently (C77)."
  },
  {
   "property": "C116",
   "status": "proved",
   "theorems": [
    "C116_pieces",
    "C116_circuit",
    "C116_sampling",
    "C116_apart"
   ],
   "note": "The client is defined in DistSpec.v. C116_apart: the gap is an underflow panic of a debug build; nothing in the documentation excludes it."
  },
  {
   "property": "C117",
   "status": "proved",
   "theorems": [
    "C117_weight",
    "C117_prob",
    "C117_draw",
    "C117_collapse"
   ],
   "note": "Proved for formats with prec, emax >= 8 (the collapse: prec + 2 <= emax), f32 and f64 among them. Draws inside the margin are not covered."
  },
  {
   "property": "C118",
   "status": "proved",
   "theorems": [
    "C118_overwrite",
    "C118_add"
   ],
   "note": "Proved for formats with prec, emax >= 8, f32 and f64 among them, with a fixed order of addition within a row (the order of the iterators)."
  },
  {
   "property": "C119",
   "status": "proved",
   "theorems": [
    "C119_circuit",
    "C119_cost",
    "C119_float"
   ],
   "note": "Proved for plain builders (depth 0). The state the circuit makes is the one of C61, which is not the Fourier transform; the missing conditions can be seen in the recorded entries."
  },
  {
   "property": "C120",
   "status": "proved",
   "theorems": [
    "C120_program",
    "C120_add",
    "C120_add_inv",
    "C120_add_mod",
    "C120_add_mod_plain"
   ],
   "note": "The functions of the lines enter by their own costs (prices). C120_add and C120_add_inv are for registers of the widths the functions ask for; other widths are errors (C56)."
  },
  {
   "property": "C121",
   "status": "partial",
   "theorems": [
    "C121_shift",
    "C121_copy",
    "C121_times_mod",
    "C121_square_mod",
    "C121_exp_mod_partial",
    "C121_numbers",
    "C121_plain"
   ],
   "note": "C121_exp_mod_partial: proved for exponents of one bit. Longer exponents run the recorded inverses of square_mod and times_mod, whose objects are not counted."
  },
  {
   "property": "C122",
   "status": "proved",
   "theorems": [
    "C122_qfft",
    "C122_numbers"
   ],
   "note": "Costs only; what the transform does under conditions is C61, what it records without conditions is C119."
  }
 ]
}