# Formal model of RustQIP: design

Source: `/repo` (read as text, never built). Prover: Rocq/Coq 8.16.1, sources in `rocq/theories`.

File names: `*Model.v` holds the model (each definition cites the lines it models), `*Spec.v` the independent
specifications, `*Proofs*.v` the proofs, `Prop*.v` the theorems named after the properties with their examples.

## Layers

1. **Base** – result type `res` (`Ok | Err | Panic`), a state monad that keeps the builder state on `Err`, bit helpers.
2. **Bits** – `set_bit`, `get_bit`, `flip_bits`, `extract_bits`, `entwine_bits`, `full_to_sub`, `sub_to_full`.
3. **Ops** – `MatrixOp`, the iterators as state machines, `sum_for_op_cols`, `apply_op`, `apply_op_overwrite`,
   `apply_ops`, over any amplitude type with ring laws (`num`): instances `Z` (for computable examples) and `C`.
4. **Measure** – `measure_prob`, `measure_probs`, `measure_state`, `soft_measure`, `measure`.
5. **Builder** – `LocalBuilder`, trait default methods, `Conditioned`, subcircuits, inversion, `inverter`.
   A builder below `d` wrappers `condition_with` is the same state with `d` condition registers; every function of
   the model takes the depth `d`, so one definition covers `LocalBuilder` (`d = 0`) and nested `Conditioned` builders.
6. **Sim** – `calculate_state_with_init` with its two swapped buffers.
7. **Den** – a *specification* semantics on functions from basis states to complex amplitudes, and a bridge
   theorem from the list simulator to it.
8. **Gates, toffoli, arithmetic, program!, qfft** on top.

The central judgement is `does s L m a L' U` (DenSpec.v): run in state `s`, where the caller holds the qubits `L`, the call
`m` succeeds with result `a`, the caller then holds `L'`, and the operator applied to the held qubits is `U`, with all
temporary qubits back at zero. `simulate_ok` turns it into a statement about the vector `calculate_state` returns.

## Modelling choices (trusted, to be judged by the reader)

* `usize` is `nat` without overflow, except `flip_bits`, which is modelled on 64-bit words, and the shifts in `qfft`,
  which panic from 64 up. C104 justifies this for the simulator: there the indices are 64-bit words. The
  builder's qubit counter on words is in `WordModel4.v` (C26_words); the one range of `i32` (in `make_op_matrix`) is modelled in `WordModel2.v`, C67; `i64` matters only in `rz_pi_by`, where the smallest value is modelled. Subtraction that
  underflows in a debug build is an explicit `Panic`. Out-of-bounds indexing, `unwrap`, `unreachable!`, `todo!`, failed
  `assert!` are explicit `Panic`.
* In C01-C76 `f64` is idealised as a real, `Complex<f64>` as Coquelicot's `C`. So no rounding, no overflow, no NaN. For C62,
  which is about float corner cases, the stdlib's `spec_float` (signed zeros, infinities, NaN, finite values) is used instead.
  C77-C81 model the simulator and the measurement functions in IEEE-754 arithmetic of any precision and exponent range
  (Flocq's `binary_float`, round to nearest even) and bound the distance to the idealised model. `cos`, `sin` and the constants
  of `P` are parameters of these theorems with a stated accuracy. The sum of an empty list of floats is +0.0 there. The row
  loops of `apply_op_overwrite` are the ones of `OpsModel.v`, which are generic in the numbers. Draws are floats.
* `Rational64` is `Q`. `Ratio::new` with denominator 0 panics.
* Random numbers are an arbitrary oracle (`nat -> R`). Rayon's parallel loops are arbitrary orders / arbitrary reduction
  trees; a lock-protected push is an arbitrary interleaving.
* Qubit `q` of basis index `i` in an `n`-qubit state is bit `n-1-q` (as in the code).
* Rust's ownership: registers are plain lists in the model, so the model allows programs Rust would reject. Theorems
  about call histories (C26, C27, C33, C63) restrict themselves to histories in which every register is used once.

## What is modelled

| Source | Modelled | Model file |
|---|---|---|
| `qip-iterators/src/utils.rs` | all | `BitsModel.v` |
| `qip-iterators/src/matrix_ops.rs` | all (`full_to_sub`, `sub_to_full`, `apply_op*`, `apply_ops*`, `select_matrix_coords`) | `BitsModel.v`, `OpsModel.v` |
| `qip-iterators/src/iterators/ops.rs` | constructors, `num_indices`, `indices`, `invert`-related, `Debug` | `OpsModel.v`, `DebugModel.v` |
| `qip-iterators/src/iterators/qubit_iterators.rs`, `qubit_multi_iterator.rs`, `iterator_mapper.rs` | all iterators and `sum_for_op_cols`; `fold_for_op_cols` only as used by the sum | `OpsModel.v`, `FunOpModel.v` |
| `qip-iterators/src/rayon_helper` | by its effect: any order, any reduction tree | `ScheduleModel.v`, `ScheduleModel2.v` |
| `qip/src/state_ops/matrix_ops.rs`, `qip/src/utils.rs`, `qip/src/types.rs` | all but `Display`/`Debug` helpers | `StateOpsModel.v`, `BitsModel.v` |
| `qip/src/state_ops/measurement_ops.rs` | all | `MeasureModel.v` |
| `qip/src/builder.rs` | `LocalBuilder` and its trait implementations, simulation, measurement results; `PartialEq`/`Hash` in `HashModel.v`; not `Debug`/`Display` | `BuilderModel.v`, `SimModel.v`, `HashModel.v` |
| `builder.rs` simulation and `measurement_ops.rs` over floats | `calculate_state_with_init` from the start index on, `prob_magnitude`, `measure*`, `soft_measure` without offsets | `FloatModel.v` |
| `qip/src/builder_traits.rs` | the default methods reached through `LocalBuilder` and `Conditioned`, and the default gate objects (293-375) a builder of a third party would use | `BuilderModel.v`, `DefaultModel.v` |
| `qip/src/conditioning.rs`, `qip/src/inverter.rs` | all | `BuilderModel.v` |
| `qip/src/boolean_circuits/arithmetic.rs` | all functions | `ArithModel.v` |
| `qip/src/qfft.rs` | all | `QfftModel.v` |
| `qip/src/macros/program.rs`, `program_ops.rs` | all | `ProgramModel.v` |
| `qip-macros/src/lib.rs` | the parsers of `program!` and `#[invert]` on token trees (all); the code they generate (93-354, 371-531) | `MacroModel.v`; `ProgramModel.v`, `BuilderModel.v` |
| `qip/src/lib.rs` (programs of the documentation), `qip/examples/simple.rs`, `inverse_example.rs`, `macro_example.rs` | the programs | `ExampleModel.v`, `ExampleModel2.v` |

Not modelled: Rust's own lexer, parser and type checker (a program that rustc rejects is `None` in `program_code`; the text of the
generated code is represented by the names and tokens it is filled with), `errors.rs` beyond the fact that an error is returned, derived `Debug` and the `Display` of errors, benches, the unit tests other than those in `PropTests.v`, the examples and doc tests other than those in `ExampleModel.v`, `ExampleModel2.v` and `PropTests.v`, memory and time, the feature flags other than their effect described above.
Library functions are taken from their documentation: `num_complex`, `num_traits`, `num_rational`, `rand`, `rayon`, `std`.
The `Display` of floats and the hash of `Ratio<i64>` are parameters of the C62 theorems.

## Properties

Every statement is in `properties.jsonl`. For each: what is modelled, how it is proved.

| Id | Model | Proof |
|---|---|---|
| C01-C05 | bit functions as in the code (folds over index lists) | `testbit` extensionality, induction over lists |
| C06 | iterators as `(state, next)`; collection by fuel that provably suffices | induction on the cursor |
| C07-C11 | `apply_op` on lists; spec: `entry op row col` summed over columns | induction on rows/columns over ring laws |
| C12, C13 | `sum_for_ops_cols`, `MultiOpIterator` | C13 odometer induction; C12 refuted by witness, exact matrix, positive part for one op |
| C14 | row writes under permutations, any number type and input; sums over binary trees | `Permutation` induction |
| C15 | list of locked pushes in any order + stable sort | sortedness + permutation uniqueness |
| C16, C17, C67 | `invert_op` etc.; unitarity as `M* M = 1` on entries | sum exchange |
| C18, C19 | constructors | case analysis |
| C20-C25 | measurement functions over `R`/`C` | finite sums over indices |
| C26-C33, C63 | builder as state machine, `run` over arbitrary call lists | invariant by induction over call histories |
| C34, C36-C41 | simulator | bridge to denotation; refutations by computed witness |
| C35 | initial index computation | bit reasoning |
| C42, C43 | toffoli | denotation of the emitted gates; induction over controls |
| C44-C48 | rotations, conditioning | denotation; refuted parts by witness |
| C49, C50, C64, C65 | condition stack | induction over depth |
| C51-C54, C66, C73 | inversion, subcircuits, also under conditions | induction over the pipeline |
| C55-C58, C71, C72, C74 | arithmetic | classical-permutation semantics of the emitted pipeline, induction over register size; under a condition the inverted Toffoli gates tilt by `V = -cos(1/2) Z + sin(1/2) X`, whose effect is followed exactly; calls whose effect is only known on some states (add_mod under a condition that does not hold) are followed by a relation between the state before and after (`WeakProofs.v`); the value of a generated inverse is read off the function's run on a new builder through the adjoint (`InvValueProofs.v`) |
| C59, C60 | `negate_bitmask`, code generated by `program!` | induction over the statements of a program |
| C75, C76 | macros as functions on token trees; spec: a writer for the documented syntax | reading back what is written, induction over lines, arguments and tokens |
| C61 | `qfft` | product of rotations and Hadamards, induction over the qubits; refuted by comparing the amplitudes of two inputs |
| C68-C70 | matrix objects | bridge to denotation |
| C77-C81 | `FloatModel.v`; spec: 2-norm distance to the denotation | standard error analysis per row, gate and reduction tree, then triangle inequality and unitarity over the circuit; the scan and the collapse for measurements; refutations by computation |
| C82-C84 | the whole simulator; spec: a small-step semantics (`WholeSpec.v`), projections and iterated integrals (`ProjSpec.v`) | induction over the pipeline; the integral splits at each measurement |
| C85 | all builder calls; spec: which calls fit their registers (`ShapeSpec.v`) | a Hoare logic for the builder monad: the pipeline holds only fitting objects (`ShapeProofs*.v`) |
| C86-C92 | programs of the documentation; spec: `EndSpec.v` | the exact effect of the calls (`does`) joined to the simulator; conditioned toffoli followed exactly (`CondToffProofs.v`); C92 joins the exact effect to the error bounds of C77 and C80 |
| C93-C95 | costs; spec: `CostSpec.v` | `uses k g`: k temporaries held at most, g objects appended; composes by maximum and sum (`CostProofs*.v`) |
| C96 | no empty registers; accessors of split results: `SplitModel.v` | judgement `filled` over all calls (`NonemptyProofs.v`) |
| C97 | verdict of a call from the call and register sizes: `OutcomeSpec.v` | `goes`/`went`/`owns` judgements for one object, one entry, one subcircuit through any number of wrappers (`OutcomeProofs.v` to `OutcomeProofs4.v`) |
| C98, C99 | histories that leave a register alone, reorderings: `AwaySpec.v` | the conservation law of C27 confines every appended entry; projections commute with the rest and the branches of a circuit add up to the whole weight (`AwayProofs*.v`) |
| C100, C88 | programs that return clean temporaries: `TempSpec.v` | every other call keeps the pool at 0, whatever is measured; one call at a time (`TempProofs*.v`); the three-control toffoli under conditions step by step (`Toff3Proofs.v`) |
| C101 | rows of the matrix against the denotation of C82 | one run per row; linearity of the denotation (`CmatProofs.v`) |
| C102 | `FunOpModel.v` | bits of `flip_bits` |
| C103 | ShiftSpec, ShiftProofs, ShiftProofs2, PropShift | every builder function commutes with adding a constant to every qubit number; `after` is what the client should look like. The earlier client has no condition in force and an empty pool of temporaries; with temporaries in the pool the qubit numbers differ and nothing is claimed |
| C104 | the index arithmetic again, on words, per build: `WordModel.v`, `WordModel2.v`; sizes of vectors: `WordSpec.v` | each word function equals the one on `nat` because every intermediate value is below 2^64 (`WordProofs.v`, `WordProofs2.v`, `WordProofs3.v`) |
| C105 | RenameSpec, RenameProofs, RenameProofs2, PropRename | every builder function commutes with an injective renaming of qubits that leaves the numbers not yet allocated alone; the renamed state is the old one read through the renaming; the registers of another order of allocation are the chunks of a permutation of the qubits |
| C106, C107 | SplitSpec, PropSplit | `same_result` compares the joint probabilities and the final vectors of two circuits; both follow from equal branches (projections commute; a projection commutes with a block of gates that is `steady`, by linearity) |
| C108 | the constructors of MatrixOp that check nothing | corollaries of C07 and the action of controls and swaps |
| C109 | qubits counted on 64 bits, the same operator on other qubits: `OutsideSpec.v` | in a release build every place n - 1 - q is taken mod 64, as on 64 qubits (`OutsideProofs.v`); then C104 and C07 |
| C110 | what a text is to tell: `DebugSpec.v` | the text is a prefix code: digits end at a comma or bracket, names start differently |
| C111 | reading a text of named lines on values, with the documented meaning of each name: `ReadSpec.v`; the texts: `TextModel.v` | line by line on numbers, induction over rounds (times_mod) and exponent qubits (exp_mod) |
| C112 | a function meaning g on values: `SoundSpec.v`; reading lines: `ReadSpec.v` | takes of each line by the extensionality of the registers, induction over lines |
| C113 | textbook matrices as lists of rows, Kronecker product, direct sum: `KronSpec.v` | cells of a Kronecker product by division and remainder; bits of an index by blocks |
| C114 | the repository's tests | computation; associativity of the Kronecker product for the general form |
| C115 | textbook product of matrices as lists of rows: `FuseSpec.v` | rows of apply_op as sums over all indices; exchange of sums |
| C116 | a client with pieces and the same steps on one vector: `DistSpec.v` | rows of apply_op over concatenated pieces; collapse cell by cell; Born sums over pieces |
| C117 | `FloatModel.v`; spec: `born`, `collapsed` of `MeasureSpec.v` | error analysis of C80 and C81 for a window at an offset (`FloatPieceProofs.v`) |
| C118 | `OpsModel.v` at `FN` of `FloatModel.v`; spec: `act`, `op_mat`, `amp_off` of `OpsSpec.v` on the operator of exact numbers (`FloatOpSpec.v`) | items of the float operator mapped to those of the exact one, error of a sum of products (`FloatOpProofs.v`) |
| C119 | `QfftModel.v`; spec: the list of entries in `QfftCircSpec.v`, `uses` of `CostSpec.v`, `qfft_amp` of `QfftSpec.v` | calls that append fixed entries in every state (`QfftCircProofs.v`), then C92 |
| C120 | `ProgramModel.v`, `ArithModel.v`; spec: `prices`, line and program sums in `ProgCostSpec.v`, closed formulas in `ArithCostSpec.v` | costs that frame any live qubits, composed line by line (`ProgCostProofs.v`); recorded inverses are counted by kind of object (`ArithCostProofs.v`) |
| C121 | `ArithModel.v`; spec: closed formulas in `ArithCostSpec2.v` | as C120; shifts and copies negation by negation, their recorded inverses as lists of CNOT (`ArithCostProofs2.v`), the two loops of times_mod round by round (`ArithCostProofs3.v`) |
| C122 | `QfftModel.v`; spec: closed formulas in `QfftCostSpec.v` | as C120; the loop over the qubits round by round, rotations as recorded lists, Hadamard gates and exchanges by their own costs (`QfftCostProofs.v`) |
| C64 (s, t) | `does` with the condition registers afterwards: `MoveSpec.v` | induction on the wrappers (`MoveProofs.v`) |
| C62 | `spec_float` values, hash as the stream of words written to the hasher | case analysis, refutation witness |

A property that is false of the code is stated in full as `..._refuted` (a proof of the negation by a witness), and the
part that holds is proved on a stated restricted domain (`..._partial`), where possible together with the exact behaviour
(`..._exact`).

## Trusted base

* Coq's kernel (with `vm_compute`, no flags switched off), the stdlib, Coquelicot's definition of the complex numbers and Flocq's definition of floats.
* The faithfulness of the model as described above.
* The axioms `Print Assumptions` lists, all from the stdlib: **D** `ClassicalDedekindReals.sig_forall_dec`,
  **N** `ClassicalDedekindReals.sig_not_dec`, **F** `FunctionalExtensionality.functional_extensionality_dep`,
  **C** `Classical_Prop.classic`. Per theorem:

| Axioms | Number | Theorems |
|---|---|---|
| none | 143 | `C01_get_bit_digit`, `C01_set_get_bit`, `C02_flip_bits_digits`, `C02_flip_bits_involutive`, `C02_flip_bits_panics`, `C03_extract_bits`, `C04_entwine_bits`, `C04_entwine_reads_back`, `C04_entwine_reads_back_off`, `C05_out_of_range_panics`, `C05_select_matrix_coords`, `C05_sub_to_full`, `C06_control_iterator`, `C06_dense_iterator`, `C06_function_iterator`, `C06_sparse_iterator`, `C06_swap_iterator`, `C07_apply_op`, `C07_apply_op_offsets`, `C07_row`, `C07_row_cells`, `C08_overwrite_ignores_buffer`, `C08_overwrite_is_apply_on_zero`, `C102_oracle_panics`, `C102_oracle_row`, `C102_oracle_symmetric`, `C104_apply`, `C104_apply_matrix`, `C104_bit_functions`, `C104_constructors`, `C104_function_operator`, `C104_invert`, `C104_matrix_of_one_entry`, `C104_nested_control`, `C104_operators_at_once`, `C104_operators_matrix`, `C104_sparse_no_qubits`, `C104_sparse_operators`, `C104_swap_assertion`, `C108_matrix`, `C108_sparse`, `C108_swap_lengths`, `C109_debug`, `C109_flip`, `C109_places`, `C109_release`, `C109_release_matrix`, `C10_control_of_control`, `C10_nested_matrix`, `C110_constructors`, `C110_new_control`, `C110_panics`, `C110_qubits`, `C110_swap`, `C110_tells`, `C111_add_mod`, `C111_exp_mod_exact`, `C111_exp_mod_one`, `C111_exp_mod_refuted`, `C111_nested`, `C111_square_mod`, `C111_times_mod`, `C112_documented_sized`, `C114_doc_tests`, `C114_iterator_tests`, `C114_matrix_tests`, `C114_multi_iterator_tests`, `C114_state_ops_tests`, `C115_same_entries`, `C11_input_chunks`, `C11_output_chunks`, `C121_numbers`, `C122_numbers`, `C12_actual_matrix`, `C12_actual_windows`, `C12_empty_refuted`, `C12_no_ops`, `C12_no_ops_gap`, `C12_single_op`, `C12_tensor_refuted`, `C12_zero_row_refuted`, `C13_multi_iterator`, `C13_product`, `C13_product_length`, `C14_apply_op_any_numbers`, `C14_apply_ops_any_numbers`, `C14_overwrite_rows_any_order`, `C14_rows_any_order`, `C14_sum_any_tree`, `C15_column_entries`, `C15_schedule_independent`, `C15_sequential`, `C15_transpose_any_schedule`, `C16_invert_op_entries`, `C16_invert_twice`, `C17_control_unitary`, `C17_swap_unitary`, `C18_make_control_op`, `C18_make_matrix_op`, `C18_make_sparse_matrix_op`, `C18_make_swap_op`, `C18_no_panic_matrix`, `C18_no_panic_sparse`, `C19_from_function_agrees`, `C26_qudit_is_register`, `C26_qudit_zero`, `C26_words`, `C28_merge_concatenates`, `C28_nothing_lost`, `C28_split_all_merge`, `C28_split_first_last`, `C28_split_relative`, `C29_out_of_range_ignored_partial`, `C29_out_of_range_ignored_refuted`, `C29_position_len_panics`, `C30_split_absolute_partial`, `C30_split_absolute_refuted`, `C30_what_it_does`, `C31_index_groups`, `C31_ranges`, `C46_zero_partial`, `C56_total`, `C59_one_value`, `C62_equivalence`, `C62_hash_exact`, `C62_hash_partial`, `C62_ratio_hash`, `C62_ratio_writes`, `C62_refuted`, `C62_same`, `C62_writes_determine`, `C67_from_31_qubits_refuted`, `C73_zero_panics`, `C75_nested_groups_panic`, `C75_no_lines_panics`, `C75_repeated_panics`, `C75_repeated_unnoticed_refuted`, `C75_semicolon_refuted`, `C75_terminates`, `C76_generics_refuted`, `C76_visibility_refuted`, `C95_depth_object`, `C96_selected` |
| D | 3 | `C51_measurement_is_error`, `C95_inverse_bound`, `C95_inverse_size` |
| F | 22 | `C05_full_to_sub`, `C09_swap`, `C108_control`, `C108_control_checked`, `C108_swap`, `C109_control_outside`, `C109_one_outside`, `C10_control`, `C113_any`, `C113_control`, `C113_dense`, `C113_dense_table`, `C114_kron_helper`, `C115_product`, `C115_table_acts_alike`, `C16_invert_op_adjoint`, `C17_inverse_restores`, `C19_little_endian_acts_reversed`, `C55_copy_total`, `C67_inverted_table`, `C67_make_op_matrix`, `C67_words_partial` |
| DF | 59 | `C103_absolute_differs`, `C103_absolute_refuted`, `C103_same_calls`, `C105_allocation_order`, `C105_same_calls`, `C111_lines_add_mod`, `C111_lines_exp_mod`, `C111_lines_square_mod`, `C111_lines_times_mod`, `C114_soft_measure_partial`, `C114_soft_measure_refuted`, `C119_circuit`, `C119_cost`, `C14_probabilities_any_order`, `C26_register_fresh`, `C27_no_cloning`, `C27_repeated_position_clones`, `C32_broadcast`, `C32_whole_register`, `C32_wrong_size`, `C33_append_only`, `C40_cnot_one_control`, `C41_swap_sizes`, `C46_min_panic`, `C46_rx_ry_zero_panic`, `C50_condition_recoverable_refuted`, `C50_early_errors_partial`, `C50_failure_loses_condition`, `C52_objects_replayed`, `C53_applies_partial`, `C53_empty_refuted`, `C53_inverter_refuted`, `C53_last_untouched_refuted`, `C55_copy_sizes`, `C56_sizes`, `C57_lshift_single_refuted`, `C58_inverse_sizes`, `C58_sizes`, `C59_no_condition_left`, `C59_ops_wrap`, `C60_misuse_panics`, `C60_routing`, `C63_reachable_tidy`, `C65_conditioned_matrix_refuted`, `C66_swap_object_fails`, `C71_sizes`, `C72_sizes`, `C73_recorded`, `C74_inverse_sizes`, `C74_sizes`, `C75_program_means`, `C75_repeated_never_runs`, `C76_invert_means`, `C95_depth`, `C95_subcircuit_cost`, `C96_never_empty`, `C97_lost_condition`, `C98_dropped`, `C98_untouched` |
| DFN | 220 | `C100_temporaries_zero_partial`, `C100_temporaries_zero_refuted`, `C101_circuit_matrix_partial`, `C101_circuit_matrix_refuted`, `C101_orthonormal`, `C101_product`, `C101_reversed_rows`, `C101_rows`, `C103_independent`, `C103_product_state`, `C104_histories`, `C104_measure`, `C104_simulation`, `C104_state`, `C104_too_many_debug`, `C104_too_many_release`, `C104_x_on_64_release`, `C105_distribution`, `C105_state`, `C106_apart`, `C106_exchanged`, `C106_initial`, `C106_rearranged`, `C107_controls`, `C107_put_off`, `C112_parts`, `C112_program`, `C112_program_example`, `C114_measurement_tests`, `C116_apart`, `C116_circuit`, `C116_pieces`, `C116_sampling`, `C120_add`, `C120_add_inv`, `C120_add_mod`, `C120_add_mod_plain`, `C120_program`, `C121_copy`, `C121_exp_mod_partial`, `C121_plain`, `C121_shift`, `C121_square_mod`, `C121_times_mod`, `C122_qfft`, `C14_collapse_any_order`, `C17_norm_preserved`, `C20_measure_prob_born`, `C21_measure_probs_distribution`, `C21_prob_magnitude`, `C22_collapse_chunks`, `C22_collapse_normalised`, `C22_collapsed_state`, `C22_measure`, `C22_measure_requested`, `C23_draw_selects`, `C23_outcome_distribution`, `C23_outcome_distribution_chunk`, `C24_never_impossible_refuted`, `C24_positive_draw_possible`, `C25_chunks_add_up`, `C34_measurement_handle_partial`, `C34_replayed_measurement_refuted`, `C34_stochastic_handle_partial`, `C35_initial_state`, `C35_measure_initial`, `C35_measure_initial_runs`, `C36_simulation_product`, `C37_normalised`, `C38_phase_pair_partial`, `C38_phase_refuted`, `C38_phase_undoes_previous_gate`, `C39_stochastic_refuted`, `C39_stochastic_undoes_previous_gate`, `C40_cnot`, `C40_daggers_undo`, `C40_gates`, `C41_swap`, `C42_toffoli`, `C43_toffoli_multi_exact`, `C43_toffoli_multi_partial`, `C43_toffoli_multi_refuted`, `C44_rz_partial`, `C44_rz_refuted`, `C45_rx`, `C45_rx_ratio`, `C45_ry_opposite`, `C45_ry_ratio`, `C45_ry_refuted`, `C46_rx_ry_pi_by_exact`, `C46_rz_pi_by_exact`, `C47_conditioned_cnot`, `C47_conditioned_gates_partial`, `C47_conditioned_h_exact`, `C47_conditioned_swap`, `C47_conditioned_y_exact`, `C47_conditioned_y_refuted`, `C48_conditioned_rotation_refuted`, `C48_rotations_ignore_condition`, `C49_any_nesting`, `C49_as_one`, `C49_nested_gates`, `C49_one_more_wrapper`, `C49_one_more_wrapper_cnot`, `C51_inverse`, `C51_phases_simulated_refuted`, `C51_simulated`, `C51_with_phases_partial`, `C52_effect`, `C52_export_and_apply`, `C54_inverter`, `C54_undoes`, `C55_carry`, `C55_carry_inv`, `C55_copy`, `C55_sum`, `C56_add`, `C56_add_inv`, `C56_add_inv_conditioned_exact`, `C56_add_small`, `C56_conditioned_exact`, `C57_lshift`, `C57_rshift`, `C57_total`, `C58_add_mod_exact`, `C58_add_mod_partial`, `C58_inverse_adjoint`, `C58_inverse_exact`, `C58_inverse_partial`, `C58_inverse_simulated`, `C58_inverse_total`, `C58_simulated`, `C58_total`, `C59_mask_selects`, `C59_no_mask`, `C60_program`, `C61_conditioned_exact`, `C61_conditioned_simulated`, `C61_large_panic`, `C61_qfft_exact`, `C61_qfft_partial`, `C61_refuted`, `C61_simulated`, `C63_sequence`, `C63_simulated`, `C63_simulated_fresh`, `C64_conditioned_register_exact`, `C64_conditioned_register_partial`, `C64_conditioned_register_refuted`, `C64_conditioned_s_t_every_depth`, `C64_conditioned_s_t_register_exact`, `C66_any_circuit_exact`, `C66_apply_conditioned_exact`, `C66_apply_conditioned_partial`, `C66_conditioned_rz_exact`, `C66_conditioned_subcircuit_exact`, `C66_conditioned_subcircuit_partial`, `C66_inverter_partial`, `C68_apply_matrix`, `C68_simulated`, `C68_wrong_size`, `C69_broadcast_partial`, `C69_broadcast_refuted`, `C70_default_cnot`, `C70_default_gates`, `C71_inverse_adjoint`, `C71_inverse_exact`, `C71_times_mod_exact`, `C71_times_mod_total`, `C72_inverse_adjoint`, `C72_inverse_exact`, `C72_square_mod_exact`, `C72_square_mod_total`, `C73_conditioned_phase_exact`, `C73_refuted`, `C73_simulated_no_effect`, `C74_exp_mod_exact`, `C74_exp_mod_inverse_total`, `C74_exp_mod_total`, `C74_inverse_adjoint`, `C74_inverse_exact`, `C74_inverses_total`, `C82_run`, `C82_run_unique`, `C83_joint`, `C83_reported`, `C84_twice`, `C85_exactly`, `C85_never_panics`, `C85_simulation_panics_refuted`, `C86_measured_calls`, `C86_stochastic_calls`, `C87_cswap`, `C88_conditioned_toffoli_exact`, `C88_conditioned_toffoli_partial`, `C88_conditioned_toffoli_refuted`, `C88_conditioned_toffoli_three_exact`, `C89_documented_control_refuted`, `C89_documented_lines_partial`, `C89_documented_program_exact`, `C89_handing_back`, `C89_macro_example`, `C90_arguments`, `C90_inverse`, `C90_inverse_any_split`, `C91_simple_probabilities`, `C91_simple_state_refuted`, `C93_conditioned_cnot_cost`, `C93_conditioned_gate_cost`, `C93_no_new_qubits`, `C93_toffoli_cost`, `C93_toffoli_sequence`, `C94_add_cost`, `C94_add_inv_cost`, `C94_inverse_longer`, `C95_conditioned_subcircuit_cost`, `C97_outcome`, `C98_no_signalling`, `C99_same_distribution`, `C99_same_state` |
| CDFN | 36 | `C117_collapse`, `C117_draw`, `C117_prob`, `C117_weight`, `C118_add`, `C118_overwrite`, `C119_float`, `C14_float_sum_depends`, `C46_rz_pi_by_refuted`, `C47_conditioned_h_refuted`, `C55_carry_inv_conditioned_refuted`, `C56_add_inv_conditioned_refuted`, `C56_conditioned_refuted`, `C58_inverse_refuted`, `C58_refuted`, `C61_conditioned_idle_refuted`, `C61_conditioned_refuted`, `C66_conditioned_h_refuted`, `C71_inverse_refuted`, `C71_refuted`, `C72_inverse_refuted`, `C72_refuted`, `C74_inverse_refuted`, `C74_refuted`, `C77_float_close`, `C77_not_exact`, `C78_float_exact`, `C79_possible`, `C79_refuted`, `C79_total`, `C80_any_order`, `C80_run`, `C81_tracks`, `C92_float_add`, `C92_float_calls`, `C92_float_probabilities` |

The development has no axiom of its own, no `Admitted`, no functor, no module type.

## Tests against wrong programs

`seeded/LOG.jsonl` has one line per edited model definition: what was edited, which claim it breaks, which theorems failed
to prove. The survivors led to the tightenings noted there.
