{"id": "C01", "title": "set_bit/get_bit are a bit-level store", "statement": "get_bit(set_bit(num,i,v),j) is v when j=i and get_bit(num,j) otherwise: set_bit changes exactly one bit of the word and get_bit reads exactly one.", "quantifier": "every word, every pair of bit positions, both values", "why_tests_cant": "a unit test checks a few words; the claim is about every word and every untouched bit", "anchors": ["qip-iterators/src/utils.rs: set_bit", "qip-iterators/src/utils.rs: get_bit"]}
{"id": "C02", "title": "flip_bits reverses the low n bits", "statement": "For 1<=n<=64 flip_bits(n,num) is the number whose bit i (i<n) is bit n-1-i of num and whose other bits are 0; on numbers below 2^n it is its own inverse, hence a bijection of 0..2^n.", "quantifier": "every n in 1..=64 and every 64-bit word", "why_tests_cant": "2^64 words times 64 widths", "anchors": ["qip-iterators/src/utils.rs: flip_bits"]}
{"id": "C03", "title": "extract_bits gathers bits in the order asked", "statement": "Bit i of extract_bits(num,indices) is bit indices[i] of num for i<len and 0 above.", "quantifier": "every number and index list, including repeated indices", "why_tests_cant": "unbounded lists of positions", "anchors": ["qip/src/utils.rs: extract_bits"]}
{"id": "C04", "title": "entwine_bits interleaves two bit streams losslessly", "statement": "Bit i of entwine_bits(n,sel,off,on) is the next unused low bit of `on` or `off`, as bit i of sel says; nothing else is set, so both streams can be read back from the result.", "quantifier": "every n, selector, off, on", "why_tests_cant": "all interleavings", "anchors": ["qip/src/utils.rs: entwine_bits"]}
{"id": "C05", "title": "full/sub index maps are mutually inverse", "statement": "For distinct qubit indices < n: full_to_sub(n,idx,sub_to_full(n,idx,s,base)) = s for s<2^k, sub_to_full only changes the qubits in idx, sub_to_full(n,idx,full_to_sub(n,idx,x),x)=x, and results stay below 2^n / 2^k.", "quantifier": "every n, every list of distinct indices, every full and sub index", "why_tests_cant": "exponentially many indices and all index lists", "anchors": ["qip-iterators/src/matrix_ops.rs: full_to_sub", "qip-iterators/src/matrix_ops.rs: sub_to_full"]}
{"id": "C06", "title": "Op iterators enumerate exactly the nonzero columns of a row", "statement": "Iterating a dense row yields, in increasing column order, exactly the (column, value) pairs with nonzero value; sparse yields its stored pairs in order; swap yields the single half-swapped column with value 1; a controlled iterator yields the shifted inner items on the all-ones control block and the single diagonal (row,1) elsewhere; each iteration terminates.", "quantifier": "every matrix, row and number of qubits", "why_tests_cant": "all matrices, rows and sizes", "anchors": ["qip-iterators/src/iterators/qubit_iterators.rs: MatrixOpIterator, SparseMatrixOpIterator, SwapOpIterator, ControlledOpIterator"]}
{"id": "C07", "title": "apply_op multiplies by the operator matrix tensored with identity", "statement": "apply_op adds to output[row], for every row, the sum over columns c of op[row restricted to the op's qubits, c] * input[row with the op's qubits set to c]; nothing else changes. Holds for dense, sparse, swap and (nested) control ops, over any ring of amplitudes. apply_op_row returns that sum for one row.", "quantifier": "every op, n, distinct index list, input and output vector", "why_tests_cant": "all matrices, all states, all index placements", "anchors": ["qip-iterators/src/matrix_ops.rs: apply_op, apply_op_row_indices", "qip-iterators/src/iterators/ops.rs: sum_for_op_cols"]}
{"id": "C08", "title": "apply_op_overwrite ignores the old output", "statement": "apply_op_overwrite produces apply_op's result on a zeroed output whatever the output buffer held.", "quantifier": "every op, input, and prior buffer contents", "why_tests_cant": "every stale buffer content", "anchors": ["qip-iterators/src/matrix_ops.rs: apply_op_overwrite"]}
{"id": "C09", "title": "Swap op exchanges the two index groups", "statement": "Applying a swap op on groups A,B gives each basis amplitude the input amplitude of the basis state with the values of A[i] and B[i] exchanged for every i.", "quantifier": "every n, disjoint equal-length groups, every state", "why_tests_cant": "all placements and states", "anchors": ["qip-iterators/src/iterators/ops.rs: MatrixOp::Swap", "qip-iterators/src/iterators/qubit_iterators.rs: SwapOpIterator", "qip/src/state_ops/matrix_ops.rs: make_swap_op"]}
{"id": "C10", "title": "Control op acts only when all controls are 1", "statement": "A control op leaves amplitudes of basis states with some control 0 unchanged and applies the inner op on the others; controlling a control op equals one control op with all controls.", "quantifier": "every inner op, control list, state", "why_tests_cant": "all controls/ops/states", "anchors": ["qip-iterators/src/iterators/ops.rs: sum_for_control_iterator", "qip/src/state_ops/matrix_ops.rs: make_control_op"]}
{"id": "C11", "title": "Chunked application agrees with whole application", "statement": "Applying an op to input chunks with offsets and accumulating gives the whole product; each output chunk with offset is the matching slice.", "quantifier": "every op, state, partition of input and output into chunks", "why_tests_cant": "all partitions", "anchors": ["qip-iterators/src/matrix_ops.rs: apply_op_row_indices, apply_op (offsets)"]}
{"id": "C12", "title": "apply_ops with several ops is their tensor product", "statement": "apply_ops(ops) on disjoint ops adds the result of applying all ops (their tensor product) to output.", "quantifier": "every list of disjoint ops and every state", "why_tests_cant": "all op lists/states", "anchors": ["qip-iterators/src/matrix_ops.rs: apply_ops", "qip-iterators/src/iterators/iterator_mapper.rs: sum_for_ops_cols"]}
{"id": "C13", "title": "MultiOpIterator enumerates the Cartesian product", "statement": "With non-empty per-op outputs it yields once each combination in lexicographic order (last op fastest), column = concatenation of columns, value = product, then None.", "quantifier": "every number of ops and every non-empty output lists", "why_tests_cant": "all shapes of products", "anchors": ["qip-iterators/src/iterators/qubit_multi_iterator.rs: MultiOpIterator"]}
{"id": "C14", "title": "Row work is independent of the schedule", "statement": "Under the feature \"parallel\" (rayon), apply_op, apply_op_overwrite, apply_ops with two operators or more, measure_state and measure_probs process their rows in any order. Whatever the number type (floats included), the operator, the buffers and the offsets: if the work ends without panic in one order, it ends with the same vector in every order. An arbitrarily bracketed parallel sum equals the sequential sum when addition is associative with zero; in f64 it can differ from it.", "quantifier": "every permutation of rows, number type, operator, buffers and offsets / every reduction tree", "why_tests_cant": "schedules cannot be enumerated by tests", "anchors": ["qip-iterators/src/rayon_helper/mod.rs: iter_mut!, into_iter!", "qip-iterators/src/matrix_ops.rs: apply_op, apply_op_overwrite, apply_ops", "qip/src/state_ops/measurement_ops.rs: measure_prob_fn, prob_magnitude, measure_state, measure_probs"]}
{"id": "C15", "title": "transpose_sparse is the transpose for every push schedule", "statement": "transpose_sparse returns, per column, the entries (row,value) of that column sorted by row; when no (row,col) is repeated the result is the same for every interleaving of the locked pushes.", "quantifier": "every sparse matrix with columns in range and every interleaving", "why_tests_cant": "interleavings of a parallel loop", "anchors": ["qip/src/utils.rs: transpose_sparse"]}
{"id": "C16", "title": "invert_op is the conjugate transpose", "statement": "The full matrix of invert_op(op) is the conjugate transpose of that of op, for dense, sparse, swap and control ops; invert_op twice acts like op.", "quantifier": "every op", "why_tests_cant": "all matrices", "anchors": ["qip/src/state_ops/matrix_ops.rs: invert_op, conj_op, transpose_op, make_op_matrix"]}
{"id": "C17", "title": "Unitary ops preserve norm and are undone by invert_op", "statement": "If the op's small matrix is unitary, apply_op preserves the sum of squared magnitudes of any state, and applying invert_op(op) afterwards restores the state.", "quantifier": "every unitary op, placement and state", "why_tests_cant": "all unitaries and states", "anchors": ["qip-iterators/src/matrix_ops.rs: apply_op", "qip/src/state_ops/measurement_ops.rs: prob_magnitude", "qip/src/state_ops/matrix_ops.rs: invert_op"]}
{"id": "C18", "title": "Op constructors validate shapes", "statement": "make_matrix_op, make_sparse_matrix_op, make_swap_op, make_control_op return Ok exactly when their documented shape conditions hold (nonempty indices, 4^k entries / 2^k nonempty rows, equal-length swap groups, nonempty controls) and otherwise Err; the Ok op has the given indices in order.", "quantifier": "every argument", "why_tests_cant": "all shapes", "anchors": ["qip/src/state_ops/matrix_ops.rs: make_matrix_op, make_sparse_matrix_op, make_swap_op, make_control_op"]}
{"id": "C19", "title": "Endianness conversions agree", "statement": "A sparse matrix given little-endian denotes the same operator as its index-reversed big-endian form; make_sparse_matrix_from_function with LittleEndian followed by a BigEndian constructor is the same as the direct table with LittleEndian.", "quantifier": "every n, matrix, function", "why_tests_cant": "all functions/matrices", "anchors": ["qip/src/state_ops/matrix_ops.rs: make_sparse_matrix_op, make_sparse_matrix_from_function"]}
{"id": "C20", "title": "measure_prob is the Born probability", "statement": "measure_prob(n,m,idx,state) = sum of |amplitude|^2 over exactly the basis states whose qubit idx[i] equals bit i of m, for every i.", "quantifier": "every state, distinct index list, outcome", "why_tests_cant": "all states/index lists", "anchors": ["qip/src/state_ops/measurement_ops.rs: measure_prob, measure_prob_fn"]}
{"id": "C21", "title": "measure_probs is a distribution", "statement": "measure_probs has 2^k nonnegative entries whose sum is prob_magnitude(state) (1 for a normalised state).", "quantifier": "every state and distinct index list", "why_tests_cant": "all states", "anchors": ["qip/src/state_ops/measurement_ops.rs: measure_probs, prob_magnitude"]}
{"id": "C22", "title": "measure_state projects and renormalises", "statement": "With p the probability of outcome m (p>0), measure_state zeroes amplitudes inconsistent with m, scales the others by 1/sqrt(p), output has squared norm 1 and re-measuring gives m with probability 1; amplitudes' ratios are kept.", "quantifier": "every state, outcome with p>0", "why_tests_cant": "all states", "anchors": ["qip/src/state_ops/measurement_ops.rs: measure_state, measure"]}
{"id": "C23", "title": "soft_measure samples by the Born rule", "statement": "With random draw r in (0,1] the returned outcome is the bits of the unique index i with cum(i) < r <= cum(i)+|a_i|^2: so each basis state is hit by an r-interval of length exactly |a_i|^2.", "quantifier": "every state, index list and random draw", "why_tests_cant": "continuum of draws", "anchors": ["qip/src/state_ops/measurement_ops.rs: soft_measure"]}
{"id": "C24", "title": "A measurement never returns an impossible outcome", "statement": "soft_measure/measure never returns an outcome of probability 0 on a normalised state.", "quantifier": "every state and every random draw in [0,1)", "why_tests_cant": "the failing draw (exactly 0) has probability 2^-53", "anchors": ["qip/src/state_ops/measurement_ops.rs: soft_measure, measure"]}
{"id": "C25", "title": "Chunked probabilities add up", "statement": "For a state split in consecutive chunks with offsets, the sum of measure_prob over chunks equals measure_prob of the whole.", "quantifier": "every state, partition and outcome", "why_tests_cant": "all partitions", "anchors": ["qip/src/state_ops/measurement_ops.rs: measure_prob (input_offset)"]}
{"id": "C26", "title": "register() hands out fresh qubits", "statement": "register(k) returns k consecutive indices never handed out before, and n() grows by exactly k; qudit(0) is None and changes nothing. On 64-bit words the counter never wraps: in both builds a call that would pass 2^64 - 1 panics, and all others are as said.", "quantifier": "every builder history", "why_tests_cant": "all histories", "anchors": ["qip/src/builder.rs: register", "qip/src/builder_traits.rs: qubit, qudit, try_register"]}
{"id": "C27", "title": "No cloning: live registers never share a qubit", "statement": "After any sequence of builder calls (allocate, merge, split by distinct positions, gates, toffoli, temp qubits, measure, drop), all live registers and pooled temporaries hold pairwise distinct qubits below n().", "quantifier": "every history of API calls", "why_tests_cant": "unbounded histories", "anchors": ["qip/src/builder.rs: LocalBuilder", "qip/src/builder_traits.rs: CircuitBuilder, TemporaryRegisterBuilder"]}
{"id": "C28", "title": "Splitting and merging lose nothing", "statement": "split_register_relative partitions the register (selected in request order, rest in original order); merging is concatenation; split_all_register then merge_registers is the identity.", "quantifier": "every register and every list of distinct in-range positions", "why_tests_cant": "all registers/lists", "anchors": ["qip/src/builder.rs: split_register_relative, merge_two_registers", "qip/src/builder_traits.rs: split_all_register, merge_registers"]}
{"id": "C29", "title": "Out-of-range positions are ignored by split_register_relative", "statement": "Positions >= r.n() are skipped, never a panic.", "quantifier": "every register and list of positions", "why_tests_cant": "only position = n() fails", "anchors": ["qip/src/builder.rs: split_register_relative"]}
{"id": "C30", "title": "split_register_absolute selects the named qubits", "statement": "split_register_absolute(r,indices) selects exactly the qubits of r whose absolute index is in indices.", "quantifier": "every register and index list", "why_tests_cant": "works only when absolute = relative, the case tests would use", "anchors": ["qip/src/builder_traits.rs: split_register_absolute"]}
{"id": "C31", "title": "split_relative_index_groups partitions into groups", "statement": "With disjoint in-range non-empty groups it returns each group's qubits in order and the rest in original order (AllSelected iff nothing remains).", "quantifier": "every register and groups", "why_tests_cant": "all groupings", "anchors": ["qip/src/builder_traits.rs: split_relative_index_groups"]}
{"id": "C32", "title": "Broadcasting applies a 1-qubit object to each qubit once, in order", "statement": "apply_circuit_object with a 1-qubit object on a k-qubit register appends exactly k entries, one per qubit in order, returns the same register; with matching size appends one; otherwise Err with builder unchanged. Earlier entries are never altered.", "quantifier": "every builder state, register and object", "why_tests_cant": "all registers/objects", "anchors": ["qip/src/builder.rs: apply_circuit_object"]}
{"id": "C33", "title": "Pipeline is append-only", "statement": "No builder call (gates, toffoli, conditioning, subcircuits, measurement) removes or reorders earlier pipeline entries; n() never decreases.", "quantifier": "every history of calls", "why_tests_cant": "all histories", "anchors": ["qip/src/builder.rs: LocalBuilder", "qip/src/builder_traits.rs: CliffordTBuilder, AdvancedCircuitBuilder"]}
{"id": "C34", "title": "Measurement handles fetch their own result", "statement": "For every circuit history and every run, get_measurement(handle) is the result of that measure call, get_stochastic_measurement likewise, and neither hits unreachable!().", "quantifier": "every history of builder calls, every run", "why_tests_cant": "all histories", "anchors": ["qip/src/builder.rs: measure, measure_stochastic, Measurements, calculate_state_with_init"]}
{"id": "C35", "title": "Initial values are loaded where asked", "statement": "calculate_state_with_init([(r_i,x_i)]) starts in the basis state where qubit j of r_i is bit j of x_i and all other qubits 0; measuring r_i first returns x_i mod 2^n with probability 1.", "quantifier": "every disjoint registers and values", "why_tests_cant": "all register layouts/values", "anchors": ["qip/src/builder.rs: calculate_state_with_init"]}
{"id": "C36", "title": "Simulation is the product of the gates", "statement": "For pipelines of unitary non-global-phase objects with well-formed indices, the state returned is the ordered product of the gate matrices (each on its own qubits) applied to the initial basis state; it never panics.", "quantifier": "every pipeline, every n", "why_tests_cant": "all circuits", "anchors": ["qip/src/builder.rs: calculate_state_with_init", "qip-iterators/src/matrix_ops.rs: apply_op_overwrite"]}
{"id": "C37", "title": "Simulation preserves normalisation", "statement": "For every such pipeline with unitary matrices the final state has squared norm 1.", "quantifier": "every unitary pipeline", "why_tests_cant": "all circuits", "anchors": ["qip/src/builder.rs: calculate_state_with_init"]}
{"id": "C38", "title": "Global phases do not affect the simulated state", "statement": "Inserting apply_global_phase anywhere leaves the computed state unchanged (`Global phases do not affect state`).", "quantifier": "every circuit and insertion point", "why_tests_cant": "depends on stale buffer contents", "anchors": ["qip/src/builder.rs: calculate_state_with_init, apply_global_phase"]}
{"id": "C39", "title": "Stochastic measurement does not collapse or change the state", "statement": "measure_stochastic leaves the state given to later gates unchanged.", "quantifier": "every circuit and insertion point", "why_tests_cant": "depends on stale buffer contents", "anchors": ["qip/src/builder.rs: calculate_state_with_init, measure_stochastic"]}
{"id": "C40", "title": "Standard gates have their textbook matrices", "statement": "x,y,z,h,s,t, s_dagger,t_dagger and cnot on any qubit(s) of any circuit act as the textbook matrices; s_dagger undoes s, t_dagger undoes t.", "quantifier": "every qubit, n and state", "why_tests_cant": "all states", "anchors": ["qip/src/builder_traits.rs: CliffordTBuilder", "qip/src/builder.rs: calculate_state_with_init"]}
{"id": "C41", "title": "swap exchanges two registers", "statement": "swap(ra,rb) on equal-size registers exchanges their contents for every state; on different sizes it is Err and changes nothing.", "quantifier": "every register pair and state", "why_tests_cant": "all states/sizes", "anchors": ["qip/src/builder_traits.rs: CliffordTBuilder::swap"]}
{"id": "C42", "title": "toffoli with any number of controls flips the target iff all controls are 1", "statement": "For a single target qubit and k>=1 controls, toffoli returns the same registers, and maps every state with zeroed temporaries to the one with the target flipped exactly where all controls are 1, with no phase, temporaries back at 0.", "quantifier": "every k, every register placement, every state", "why_tests_cant": "unbounded number of controls and all superpositions", "anchors": ["qip/src/builder_traits.rs: AdvancedCircuitBuilder::toffoli, basic_toffoli"]}
{"id": "C43", "title": "toffoli flips every qubit of a multi-qubit target", "statement": "`Applies NOT to r if all qubits in cr are 1`, for r of any size.", "quantifier": "every target size", "why_tests_cant": "needs >=2 targets and >=2 controls in superposition", "anchors": ["qip/src/builder_traits.rs: basic_toffoli"]}
{"id": "C44", "title": "rz is the z rotation", "statement": "rz(r,theta) on a register applies diag(e^{-i theta/2}, e^{i theta/2}) to its qubits.", "quantifier": "every register size, theta, state", "why_tests_cant": "all sizes and angles", "anchors": ["qip/src/builder.rs: rz, calculate_state_with_init"]}
{"id": "C45", "title": "rx and ry rotate about x and y", "statement": "rx(theta)=exp(-i theta X/2), ry(theta)=exp(-i theta Y/2); ry_ratio agrees with ry.", "quantifier": "every theta, state", "why_tests_cant": "all angles", "anchors": ["qip/src/builder_traits.rs: RotationsBuilder"]}
{"id": "C46", "title": "rz_pi_by rotates by pi/m", "statement": "rz_pi_by(r,m) applies the z rotation by angle pi/m; m=0 is Err.", "quantifier": "every m", "why_tests_cant": "all m", "anchors": ["qip/src/builder.rs: rz_pi_by", "qip/src/builder_traits.rs: rz_ratio"]}
{"id": "C47", "title": "Conditioned gates are controlled gates", "statement": "On a conditioned builder, x,z,s,t,cnot (and y,h) on single-qubit targets act as the gate when all condition qubits are 1 and as identity otherwise, exactly (phase included), temporaries back at 0.", "quantifier": "every number of controls, placement, state", "why_tests_cant": "all states/number of controls", "anchors": ["qip/src/builder.rs: try_apply_with_condition", "qip/src/conditioning.rs: Conditioned"]}
{"id": "C48", "title": "Conditioned rotations are conditioned", "statement": "rz/rx/ry called on a conditioned builder act only where the condition holds.", "quantifier": "every angle, state", "why_tests_cant": "all states", "anchors": ["qip/src/conditioning.rs: RotationsBuilder for Conditioned"]}
{"id": "C49", "title": "Nested conditioning is conditioning on the union", "statement": "Conditioning a conditioned builder acts as conditioning on both registers, and the condition registers come back intact: for the gates, and for every function that acts where its condition holds, any number of conditions inside one another do what one condition on all their qubits does.", "quantifier": "every nesting depth", "why_tests_cant": "unbounded depth", "anchors": ["qip/src/conditioning.rs: Conditionable for Conditioned"]}
{"id": "C50", "title": "A failed conditioned call leaves the builder usable", "statement": "After an Err from a conditioned builder the condition register can still be recovered with dissolve().", "quantifier": "every failing object", "why_tests_cant": "error paths", "anchors": ["qip/src/conditioning.rs: apply_circuit_object, dissolve"]}
{"id": "C51", "title": "invert_subcircuit inverts every unitary circuit", "statement": "Running any unitary circuit then its inverted subcircuit is the identity on states; a circuit with a measurement is Err.", "quantifier": "every circuit (matrix objects unitary)", "why_tests_cant": "all circuits", "anchors": ["qip/src/builder.rs: invert_subcircuit, invert_circuit_object"]}
{"id": "C52", "title": "apply_subcircuit replays the circuit on the given register", "statement": "Applying an exported circuit to register r appends its objects with qubit j replaced by r[j] (extra qubits by zeroed temporaries) and returns r.", "quantifier": "every circuit and register of at least the size needed", "why_tests_cant": "all circuits", "anchors": ["qip/src/builder.rs: apply_subcircuit, apply_pipeline_objects, make_subcircuit"]}
{"id": "C53", "title": "Any subcircuit may be applied or inverted", "statement": "apply_subcircuit/inverter succeed for every circuit built on k qubits applied to a k-qubit register, including ones that do not touch the last qubit or are empty.", "quantifier": "every circuit", "why_tests_cant": "edge cases", "anchors": ["qip/src/builder.rs: apply_pipeline_objects", "qip/src/inverter.rs: inverter_args"]}
{"id": "C54", "title": "inverter undoes the function", "statement": "f followed by inverter(f) on the same registers is the identity; returned registers have the original sizes and qubits.", "quantifier": "every circuit function whose circuit touches the last qubit of its registers (for the others see C53)", "why_tests_cant": "all functions/states", "anchors": ["qip/src/inverter.rs: inverter, inverter_args", "qip-macros/src/lib.rs: invert"]}
{"id": "C55", "title": "carry, sum and copy compute their boolean functions", "statement": "carry: cp ^= majority(a,b,c); sum: b ^= a^c; copy: b ^= a; all other qubits unchanged, on every basis state and hence every superposition.", "quantifier": "every register placement, all inputs", "why_tests_cant": "all superpositions", "anchors": ["qip/src/boolean_circuits/arithmetic.rs: carry, sum, copy"]}
{"id": "C56", "title": "add adds registers of any size", "statement": "With rc[1..] zero, add maps rb to (rb + ra + rc[0]) mod 2^(n+1), keeping ra, rc and temporaries; wrong sizes are Err. add_inv subtracts.", "quantifier": "every n, every input, every placement", "why_tests_cant": "unbounded n", "anchors": ["qip/src/boolean_circuits/arithmetic.rs: add, add_inv"]}
{"id": "C57", "title": "rshift rotates the register and lshift undoes it", "statement": "rshift moves qubit i's value to i+1 (cyclically) for every size; lshift is its inverse.", "quantifier": "every size", "why_tests_cant": "unbounded sizes", "anchors": ["qip/src/boolean_circuits/arithmetic.rs: rshift, lshift"]}
{"id": "C58", "title": "add_mod computes (a+b) mod M", "statement": "For a,b<M, add_mod maps b to (a+b) mod M, keeps a, M and temporaries. add_mod and its generated inverse add_mod_inv succeed at any depth of conditions, give the registers back and return their temporaries; wrong sizes are Err and leave the builder as it was. add_mod_inv maps (a+b) mod M back to b.", "quantifier": "every n and a,b<M", "why_tests_cant": "unbounded n", "anchors": ["qip/src/boolean_circuits/arithmetic.rs: add_mod"]}
{"id": "C59", "title": "Controlled masks select one control value", "statement": "program! control(mask) f applies f exactly when qubit i of the control register equals bit i of mask for all i, and leaves the control register unchanged. A program! that fails part way through a controlled line leaves no condition on the caller's builder.", "quantifier": "every mask, control size; every program, returning or failing", "why_tests_cant": "2^k masks for every k", "anchors": ["qip/src/macros/program.rs: negate_bitmask", "qip-macros/src/lib.rs: program"]}
{"id": "C60", "title": "program! routes qubits back to where they came from", "statement": "After program! every input register has the same qubits in the same order, and each line's function receives exactly the qubits named, in order.", "quantifier": "every program of lines with disjoint index lists", "why_tests_cant": "all programs", "anchors": ["qip-macros/src/lib.rs: program"]}
{"id": "C61", "title": "qfft is the quantum Fourier transform", "statement": "qfft(r) maps |x> to 2^{-n/2} sum_y e^{2 pi i xy/2^n}|y>.", "quantifier": "every n, x", "why_tests_cant": "all n", "anchors": ["qip/src/qfft.rs: qfft"]}
{"id": "C62", "title": "Eq and Hash of circuit objects agree", "statement": "Objects that compare equal hash equally, and every object equals itself. Objects that feed a hasher the same are equal.", "quantifier": "every object", "why_tests_cant": "float corner cases", "anchors": ["qip/src/builder.rs: PartialEq/Hash for UnitaryMatrixObject, RotationObject"]}
{"id": "C63", "title": "What a builder call does is what the simulator returns", "statement": "For every history, the registers a client holds are distinct and in use and the pool holds distinct single qubits; whenever a call carries out an operation D, running it and simulating yields D applied to the state before, for every initial value; effects of successive calls compose.", "quantifier": "every history, call, initial value", "why_tests_cant": "all histories", "anchors": ["qip/src/builder.rs: LocalBuilder", "qip/src/builder.rs: calculate_state_with_init"]}
{"id": "C64", "title": "A conditioned gate treats every qubit of its register", "statement": "With condition register c, x, y, z, s and t on a register of several qubits apply the gate to each of its qubits when all qubits of c are 1 and nothing otherwise, and return the register and the condition register as they were.", "quantifier": "every register size, condition size, state", "why_tests_cant": "unbounded sizes", "anchors": ["qip/src/builder.rs: ConditionableSubcircuit/try_apply_with_condition for LocalBuilder", "qip/src/conditioning.rs: Conditioned"]}
{"id": "C65", "title": "A matrix can be applied under a condition", "statement": "apply_matrix on a conditioned builder applies the matrix to its register when the condition holds.", "quantifier": "every matrix, depth, register", "why_tests_cant": "all matrices", "anchors": ["qip/src/builder.rs: try_apply_with_condition", "qip/src/conditioning.rs: apply_circuit_object"]}
{"id": "C66", "title": "A conditioned subcircuit acts exactly where the condition holds", "statement": "Applying (or inverting) a subcircuit on a conditioned builder performs the subcircuit's operation on the register where all condition qubits are 1 and nothing elsewhere, and gives the registers back.", "quantifier": "every subcircuit, depth, condition size, state", "why_tests_cant": "all circuits and states", "anchors": ["qip/src/builder.rs: apply_conditioned_subcircuit", "qip/src/conditioning.rs: apply_subcircuit, apply_conditioned_subcircuit"]}
{"id": "C67", "title": "make_op_matrix tabulates the operation", "statement": "For an op on distinct qubits below n, make_op_matrix(n, op) has 2^n rows of 2^n cells; cell j of row i is the amplitude of basis state j in op applied to basis state i. The table of invert_op(op) is the conjugate transpose of that of op. Both hold in debug and in release builds, with indices of 64 bits.", "quantifier": "every n up to 63, op, both builds", "why_tests_cant": "all operations, sizes near the bounds of the integer types", "anchors": ["qip/src/state_ops/matrix_ops.rs:246-257", "qip/src/state_ops/matrix_ops.rs:152-201"]}
{"id": "C68", "title": "apply_matrix applies the given matrix", "statement": "apply_matrix / apply_vec_matrix on a register of k qubits with 4^k entries act on the state as the matrix with these entries row by row, the register's first qubit being the most significant place, unitary or not. Data of any other length is accepted by the call, and every later simulation panics.", "quantifier": "every register, data, state, later calls", "why_tests_cant": "all registers and matrices", "anchors": ["qip/src/builder_traits.rs: apply_vec_matrix, apply_matrix", "qip/src/builder.rs: vec_matrix_to_circuitobject, calculate_state_with_init"]}
{"id": "C69", "title": "broadcast_single_qubit_matrix applies the matrix to each qubit", "statement": "broadcast_single_qubit_matrix(r, m) applies the single-qubit matrix m to every qubit of r.", "quantifier": "every register, matrix, state", "why_tests_cant": "all register sizes", "anchors": ["qip/src/builder_traits.rs: broadcast_single_qubit_matrix"]}
{"id": "C70", "title": "Default gate objects are the gates", "statement": "The default make_x, make_y, make_z, make_h, make_s, make_t, make_cnot of the trait act as the Pauli, Hadamard, S, T and CNOT gates, as LocalBuilder's own objects do.", "quantifier": "every register, state", "why_tests_cant": "all states", "anchors": ["qip/src/builder_traits.rs: make_x .. make_cnot"]}
{"id": "C71", "title": "times_mod computes (p + a*b) mod M", "statement": "For a,p<M, times_mod(ra,rb,rm,rp) succeeds at any depth of conditions, maps p to (p + a*b) mod M, keeps a, b, M and its temporaries; times_mod_inv maps (p + a*b) mod M back to p; wrong sizes are Err and leave the builder as it was.", "quantifier": "every n, k, depth, input", "why_tests_cant": "unbounded sizes and depth", "anchors": ["qip/src/boolean_circuits/arithmetic.rs: times_mod"]}
{"id": "C72", "title": "square_mod computes (s + a*a) mod M", "statement": "For a,s<M, square_mod(ra,rm,rs) succeeds at any depth of conditions, maps s to (s + a*a) mod M, keeps a, M and its temporaries; square_mod_inv maps (s + a*a) mod M back to s; wrong sizes are Err and leave the builder as it was.", "quantifier": "every n, depth, input", "why_tests_cant": "unbounded sizes and depth", "anchors": ["qip/src/boolean_circuits/arithmetic.rs: square_mod"]}
{"id": "C73", "title": "A global phase recorded in a subcircuit has its effect when conditioned", "statement": "apply_global_phase is documented to have no effect by default but an impact if conditioned. Applying a subcircuit holding a global phase theta on a conditioned builder multiplies the amplitudes where all condition qubits are 1 by e^(i theta), leaves the others alone, and gives registers and temporaries back. What is recorded is one object on the register, with the number given to apply_global_phase or apply_global_phase_ratio, and with the rational 1/m for apply_global_phase_pi_by m, which panics for m = 0 and, with overflow checks, for m = i64::MIN.", "quantifier": "every angle, depth, condition size, state", "why_tests_cant": "continuous angles, unbounded depth and condition size", "anchors": ["qip/src/builder.rs: apply_global_phase, try_apply_with_condition (GlobalPhase arm)", "qip/src/builder.rs: apply_conditioned_subcircuit"]}
{"id": "C74", "title": "exp_mod computes p * a^b mod M", "statement": "For a,p<M, exp_mod(ra,rb,rm,rp,re) with re=0 terminates and succeeds at any depth of conditions and any number of exponent qubits, puts p*a^b mod M into re, keeps a, b, M, p and its temporaries; wrong sizes are Err and leave the builder as it was. The inverses it calls (times_mod_inv, square_mod_inv) and its own (exp_mod_inv) succeed too at any depth, and report wrong sizes likewise.", "quantifier": "every n, exponent size, depth, input", "why_tests_cant": "unbounded sizes, recursion and depth", "anchors": ["qip/src/boolean_circuits/arithmetic.rs: exp_mod, exp_mod_inv, times_mod_inv, square_mod_inv"]}
{"id": "C75", "title": "program! runs the program that is written", "statement": "Every program!(b; registers; lines) in the documented syntax (bracketed groups, indices, control, control(mask), extra arguments, last semicolon optional) compiles to code that runs its lines in order, each calling the named function with exactly the registers and indices written; nested groups are rejected, a register listed twice is reported, no token of an accepted program is ignored, and the macro terminates on all inputs.", "quantifier": "every token sequence, any number of registers, lines and arguments", "why_tests_cant": "unbounded programs; compile-time code with no tests in the repository", "anchors": ["qip-macros/src/lib.rs: program, parse_list_of_registers, parse_register_and_indices"]}
{"id": "C76", "title": "#[invert] adds the inverse with the same signature", "statement": "For any function, #[invert] keeps it and adds name_inv (or the given name) with the same signature, whose body applies the inverted subcircuit of a call of the original with fresh registers for all arguments not listed in the attribute and the listed ones passed on.", "quantifier": "every function signature and attribute", "why_tests_cant": "unbounded signatures; compile-time code with no tests in the repository", "anchors": ["qip-macros/src/lib.rs: invert, parse_function_args"]}
{"id": "C77", "title": "Floating-point simulation stays close to the exact state", "statement": "With f32 or f64 amplitudes, simulating any circuit of x, y, z, h, s, t, cnot, swap, rz and matrix objects on any number m of qubits with 32(2^m+3)u <= 1 and 2^m d <= 1 (numbers within d of those of a unitary matrix) from any basis state succeeds, gives finite amplitudes, and the result is within 2k(44u + 10d + 20 eta sqrt(2^n)) of the exact state in the 2-norm, where k counts the h, t and rz gates and each matrix object on m qubits 4^(m-1) times, u is the unit roundoff, eta half the smallest positive number and d the accuracy of the platform's cos, sin and constants (as long as this bound is at most 1).", "quantifier": "every circuit, number of qubits, start state, format, platform accuracy", "why_tests_cant": "rounding errors over all circuits and inputs", "anchors": ["qip/src/builder.rs: calculate_state_with_init", "qip-iterators/src/matrix_ops.rs: apply_op_overwrite", "qip-iterators/src/iterators"]}
{"id": "C78", "title": "Circuits of x, y, z, s, cnot, swap are simulated exactly in floating point", "statement": "For every circuit of these gates the float amplitudes are exactly those of the exact state, on any platform.", "quantifier": "every circuit, number of qubits, start state, format", "why_tests_cant": "all circuits", "anchors": ["qip/src/builder.rs: calculate_state_with_init", "qip-iterators/src/matrix_ops.rs: apply_op_overwrite"]}
{"id": "C79", "title": "Floating-point measurement never fails and reports possible outcomes", "statement": "measure succeeds on any float vector (NaN and infinities included) with an outcome in range; on finite states a positive draw gives an outcome of positive probability.", "quantifier": "every state, register, draw", "why_tests_cant": "rounding in the cumulative scan", "anchors": ["qip/src/state_ops/measurement_ops.rs: measure, soft_measure, measure_prob, measure_state"]}
{"id": "C80", "title": "Reported probabilities are close to Born's rule", "statement": "For a finite float state the probability reported for an outcome is within (3M+3)u p + 10 M eta of the Born probability p of that state (M the number of basis states added), whatever the order in which a parallel sum adds the terms; after a circuit, measure_stochastic reports the probabilities of the exact state up to this and six times the cost of the circuit (half the bound of C77).", "quantifier": "every circuit, register, outcome, reduction order", "why_tests_cant": "all reduction orders and roundings", "anchors": ["qip/src/state_ops/measurement_ops.rs: measure_prob, measure_prob_fn, measure_probs", "qip/src/builder.rs: calculate_state_with_init"]}
{"id": "C81", "title": "Floating-point runs with measurements follow the exact run", "statement": "In a circuit of gates and measurements, as long as each draw is clear by the stated margin of the boundaries between the weights of the basis states of the exact state, the float run reports the same outcomes, their probabilities up to the margin, and ends with finite amplitudes within the stated distance of the exact collapsed state.", "quantifier": "every circuit with any number of measurements, draws, format", "why_tests_cant": "rounding, continuous draws", "anchors": ["qip/src/state_ops/measurement_ops.rs: measure, soft_measure, measure_state", "qip/src/builder.rs: calculate_state_with_init"]}
{"id": "C82", "title": "A run does its entries one after the other", "statement": "For every circuit (gates, global phases, measurements, stochastic measurements in any order) whose entries fit their qubits, calculate_state_with_init succeeds; amplitudes and results are the ones of a step-by-step semantics with one case per kind of entry, and that semantics allows nothing else.", "quantifier": "every circuit, initial value, sequence of draws", "why_tests_cant": "unbounded circuits, continuous draws", "anchors": ["qip/src/builder.rs: calculate_state_with_init"]}
{"id": "C83", "title": "All measurement outcomes of a run together follow Born's rule", "statement": "In a circuit of unitaries and measurements in any order, the probability over independent uniform draws that the run reports the outcomes ms is the squared norm of the state projected at each measurement onto its outcome; with positive draws the reported probabilities multiply to that number and the state returned is the projected state, normalised.", "quantifier": "every circuit, any number of measurements, outcomes", "why_tests_cant": "continuous draws, unbounded numbers of measurements", "anchors": ["qip/src/builder.rs: calculate_state_with_init", "qip/src/state_ops/measurement_ops.rs: measure"]}
{"id": "C84", "title": "Measuring a register again gives the same result", "statement": "If the entries between two measurements of a register do not touch its qubits, the second reports the outcome of the first with probability 1.", "quantifier": "every circuit, register, entries before, between and after, positive draws", "why_tests_cant": "all circuits and draws", "anchors": ["qip/src/builder.rs: calculate_state_with_init", "qip/src/state_ops/measurement_ops.rs: measure"]}
{"id": "C85", "title": "Every circuit the builder records can be simulated", "statement": "After any sequence of calls on the builder (registers, gates, rotations, conditions, temporaries, subcircuits, inverter, measurements, failed calls included) in which objects are used on registers of their size, calculate_state_with_init succeeds for all initial values of distinct registers and all draws, and follows the step-by-step semantics of C82. For arbitrary calls it panics exactly when a recorded object sits on a number of qubits it is not for, and never returns an error.", "quantifier": "every history of calls, initial value, draws", "why_tests_cant": "unbounded histories", "anchors": ["qip/src/builder.rs: LocalBuilder, calculate_state_with_init", "qip/src/conditioning.rs: Conditioned"]}
{"id": "C86", "title": "What a measured program reports", "statement": "For every program whose effect on the qubits is known (the arithmetic functions, program!, gates, in any combination), doing it and then measuring a register: the simulation returns outcome k exactly with the probability the effect gives it, and the state it returns is the projected one, normalised. With measure_stochastic at the end instead, the run reports all these probabilities, whatever the draws.", "quantifier": "every such program, register, initial value, draws", "why_tests_cant": "continuous draws, all programs", "anchors": ["qip/src/builder.rs: calculate_state_with_init, measure, measure_stochastic", "qip/src/state_ops/measurement_ops.rs: measure"]}
{"id": "C87", "title": "The documented controlled swap test works", "statement": "The first program of the documentation (H on a qubit, swap of two registers under that qubit, H, measure) for registers of every size n and initial values a, b: it returns; if a = b mod 2^n the measurement gives 0 with probability 1, otherwise 0 and 1 with probability 1/2 each.", "quantifier": "every n > 0, a, b, draws", "why_tests_cant": "unbounded sizes, continuous draws", "anchors": ["qip/src/lib.rs: CSWAP example", "qip/src/builder.rs: qubit, register, h, swap, measure"]}
{"id": "C88", "title": "A conditioned toffoli is a toffoli with one more control", "statement": "Under conditions, toffoli with controls cr flips its target when the conditions and all of cr hold, and does nothing else.", "quantifier": "every number of controls, depth, target", "why_tests_cant": "unbounded depth and controls", "anchors": ["qip/src/builder_traits.rs: toffoli", "qip/src/conditioning.rs: Conditioned"]}
{"id": "C89", "title": "The documented program! does what its text says", "statement": "The program of the documentation (gamma on r1 and r2 taken by indices, then control, then control(0b110)) on registers of any size has the effect of its lines one after the other, the control lines acting exactly when the control register has the value named. The program of examples/macro_example.rs, whose functions hand their registers back, hands back its two registers and leaves every state alone.", "quantifier": "every pair of registers of sizes >= 3", "why_tests_cant": "unbounded sizes, all superpositions", "anchors": ["qip/src/lib.rs: program! example", "qip-macros/src/lib.rs: program", "qip/examples/macro_example.rs"]}
{"id": "C90", "title": "The documented inverses invert, and arguments reach their functions", "statement": "gamma followed by gamma_inv generated by #[invert] on the same qubits is the identity, also with an argument and also when the registers are merged and split differently; with the argument false the second toffoli is left out.", "quantifier": "every pair of registers, superposition, split", "why_tests_cant": "unbounded sizes, all superpositions", "anchors": ["qip/src/lib.rs: invert example", "qip/examples/inverse_example.rs: gamma", "qip/src/inverter.rs: inverter"]}
{"id": "C91", "title": "examples/simple.rs prints the Bell state and its probabilities", "statement": "The example builds a Bell pair (h, then control not through program!), measures it stochastically and simulates: the stochastic result is [1/2, 0, 0, 1/2] and the state printed is the Bell state.", "quantifier": "every sequence of draws", "why_tests_cant": "the example is only run by hand", "anchors": ["qip/examples/simple.rs: main", "qip/src/builder.rs: calculate_state, measure_stochastic"]}
{"id": "C92", "title": "Programs in floating point report what they should", "statement": "For every program whose effect is known, simulating it in f32, f64 or any such format gives a state within a bound of the exact one (in the number of recorded h, t and rz objects, the roundoff and the accuracy of the elementary functions), and measure_stochastic reports probabilities within a bound of the exact ones; for add the probability reported for the right sum is at least 1 minus the bound.", "quantifier": "every such program, format, initial value, size", "why_tests_cant": "rounding in all states and sizes", "anchors": ["qip/src/builder.rs: calculate_state_with_init", "qip/src/boolean_circuits/arithmetic.rs: add", "qip/src/state_ops/measurement_ops.rs: measure_probs"]}
{"id": "C93", "title": "Cost of toffoli and of conditioned gates", "statement": "A toffoli with c controls (c at least 1) on t targets appends exactly t objects for c = 1 and 42(c-2)+14t+7 objects otherwise, borrows c-2 temporaries, allocates only those that the pool of returned temporaries does not have, and leaves them all in the pool; a gate inside condition_with on c qubits costs a fixed number of objects in c; so do sequences of such calls, whose width is that of the widest call.", "quantifier": "every builder state, number of controls and targets, condition depth", "why_tests_cant": "unbounded numbers of controls and builder histories", "anchors": ["qip/src/builder.rs: toffoli, get_temp_register, return_zeroed_temp_register, make_qubits", "qip/src/conditioning.rs: condition_with, apply"]}
{"id": "C94", "title": "Cost of the adder", "statement": "add on a carry register and an addend of n qubits and a sum register of n+1 qubits (n at least 1) appends exactly 124n-78 objects, its inverse add_inv 206n-126; neither allocates qubits nor touches the pool of temporaries; the inverse is always longer.", "quantifier": "every n", "why_tests_cant": "every width at once", "anchors": ["qip/src/boolean_circuits/arithmetic.rs: add, carry, sum", "qip/src/inverter.rs: invert_circuit_object"]}
{"id": "C95", "title": "Cost of subcircuits and of inverses", "statement": "Applying a recorded subcircuit on n qubits to a register of k qubits uses n-k temporaries and appends its objects once; under c conditions at every depth its temporaries and objects are given exactly by its objects; inverting k times in a row turns S into k+1 and T into (k+1)(k+2)/2 objects and leaves the rest alone, so that one inverse is at most three times as long. pipeline_depth counts recorded objects: an object of one qubit counts once for every qubit of the register it is applied to, any other once, an object that does not fit is an error that records nothing.", "quantifier": "every subcircuit, register, condition depth, number of inversions", "why_tests_cant": "unbounded circuits and depths", "anchors": ["qip/src/builder.rs: apply_subcircuit", "qip/src/conditioning.rs: apply_subcircuit", "qip/src/inverter.rs: invert_circuit_object"]}
{"id": "C96", "title": "Registers are never empty", "statement": "Whatever calls have been made, also with repeated split positions and after failed calls, every register held by the client, a wrapper, the pool of returned qubits or the pipeline holds a qubit, so n_nonzero never panics; split_relative_groups' get_all_selected is Ok exactly when the groups cover the register, and in either case the groups hold the qubits at the given positions.", "quantifier": "every history of builder calls; every register and groups", "why_tests_cant": "unbounded histories", "anchors": ["qip/src/builder_traits.rs: n_nonzero, get_all_selected, get_selected", "qip/src/builder.rs: Qudit::new_from_iter, make_temps, return_zeroed"]}
{"id": "C97", "title": "Which builder calls return, fail or panic", "statement": "Whether a call returns a value, returns Err or panics depends only on the call, the sizes of its registers and whether it is made through a wrapper: apply_circuit_object errs when the object does not fit the register, cnot errs unless the first register has one qubit, swap errs on different sizes, rz_pi_by errs at 0, the other pi_by calls panic at 0 and at i64::MIN, a split panics at the position one past the end, groups panic on repeated or outside positions, through a wrapper a matrix panics, a measurement errs, CNOT panics off two qubits and SWAP errs or panics by parity, and a subcircuit works up to its first entry that does not; everything else works. Once a wrapper has lost its condition register, every object applied through it panics.", "quantifier": "every history of builder calls, every depth of wrappers, every type-correct call and every register", "why_tests_cant": "unbounded histories, sizes and depths", "anchors": ["qip/src/builder.rs: CircuitBuilder, CliffordTBuilder, Subcircuitable, SplitManager for LocalBuilder", "qip/src/builder_traits.rs: CliffordTBuilder, TemporaryRegisterBuilder", "qip/src/conditioning.rs: apply_circuit_object for Conditioned"]}
{"id": "C98", "title": "A call acts only on the registers it is given", "statement": "Whatever sequence of builder calls is made (gates, conditions, subcircuits, inverses, temporaries, measurements, failing calls included), none of them appends anything that acts on a register that was not given to it, and the register stays with the client. So measuring a register shows the same distribution of outcomes, jointly with all earlier ones, whether or not calls on other registers, measurements included, are made in between. A qubit whose register was dropped is never acted on and never handed out again.", "quantifier": "all client histories, all registers left alone, all initial values, all outcomes", "why_tests_cant": "tests apply gates to chosen registers and look at final states; that no call among arbitrarily long histories with temporaries and nested conditions reaches a foreign qubit, and the equality of the distributions, is beyond any finite set of runs", "anchors": ["qip/src/builder.rs:364-386", "qip/src/builder.rs:565-580", "qip/src/builder.rs:652-862", "qip/src/builder_traits.rs:355-618", "qip/src/conditioning.rs:76-225"]}
{"id": "C99", "title": "Objects on different qubits can be exchanged", "statement": "Exchanging neighbouring pipeline objects that share no qubit, any number of times, does not change what the simulator returns: the same state vector for circuits of gates, the same joint distribution of the outcomes for circuits with gates and measurements (two measurements staying in order).", "quantifier": "all circuits, all sequences of exchanges, all initial values, all outcomes", "why_tests_cant": "there are exponentially many orders of a circuit and the outcomes are random; tests compare a few final states", "anchors": ["qip/src/builder.rs:364-386", "qip/src/builder.rs:388-470"]}
{"id": "C100", "title": "Temporary qubits are handed out as 0", "statement": "If a program gives back only temporaries that are 0, then every register that make_zeroed_temp_qubit or make_zeroed_temp_register hands out, new or reused, is 0: no run leaves an amplitude on a basis state in which one of its qubits is 1, and measuring it right away shows 0 with probability 1, whatever was measured before.", "quantifier": "every history of builder calls, initial values and outcomes; new and reused temporaries, those used inside toffoli and conditioned gates included", "why_tests_cant": "reuse depends on the whole history of the pool and on the state of entangled qubits; tests look at single calls", "anchors": ["qip/src/builder.rs:565-576", "qip/src/builder_traits.rs:485-497", "qip/src/builder_traits.rs:541-588", "qip/src/conditioning.rs:173-179"]}
{"id": "C101", "title": "make_circuit_matrix returns the matrix of the circuit", "statement": "For a register holding all qubits in order, entry [i][j] of make_circuit_matrix is the amplitude of basis state j after running the circuit on basis state i, in the indexing of the state vector that calculate_state returns; so the matrix of a circuit without objects is the identity, the rows of every matrix are orthonormal and the matrix of two circuits in sequence is the product of their matrices.", "quantifier": "every circuit of gates, every number of qubits, every register", "why_tests_cant": "tests compare small matrices of permutations that bit order cannot tell apart; the entries are for all circuits and sizes", "anchors": ["qip/src/builder_traits.rs:655-665", "qip/src/builder.rs:388-470"]}
{"id": "C102", "title": "The function oracle iterator", "statement": "A FunctionOpIterator built for a row yields exactly one entry and then None: the column is the row with f of the input value xored into the output qubits (first qubit least significant), with the phase that f gave; the operator is symmetric; the constructor panics exactly for input sizes outside 1..64 and output sizes outside 1..63.", "quantifier": "every f, every register sizes, every row", "why_tests_cant": "all functions and rows", "anchors": ["qip-iterators/src/iterators/qubit_iterators.rs:221-271", "qip-iterators/src/utils.rs:20-23"]}
{"id": "C103", "title": "Programs do not depend on what was built before, and are independent of it", "statement": "Take a program that uses only registers it makes itself, and run it on a builder that already has other registers and a pipeline. It returns, fails and panics as on a new builder. It ends with the same registers and the same pipeline, with every qubit number larger by the number of qubits that were there before. The exception is split_register_absolute, which is given qubit numbers: a program is exhibited that splits on a new builder and does not after another register. The state of the larger circuit is the product of the two states, for every initial value. The outcomes of the measurements of the two programs are independent, and each has the distribution it has when its program is run alone.", "quantifier": "every list of builder calls other than split_register_absolute, with every success, error and panic; every earlier client with no condition in force and no temporary in the pool; every pair of well formed circuits, every initial value of each, every list of outcomes", "why_tests_cant": "A test fixes the two programs. The claim is about all pairs of programs, and the independence is about the probabilities of all outcomes.", "anchors": ["qip/src/builder.rs", "qip/src/lib.rs"]}
{"id": "C104", "title": "Indices fit in 64-bit words, and debug and release builds compute the same", "statement": "With usize of 64 bits and at most 63 qubits no addition, subtraction, multiplication or shift of an index in calculate_state_with_init overflows. So a debug build, where overflow panics, and a release build, where it wraps, return the same state and the same measurement results, and these are the ones that arithmetic without bounds gives. The same holds for apply_op and apply_op_overwrite on any part of the rows of up to 64 qubits, for measure and measure_probs on any part of the rows of up to 63 qubits, for apply_ops on any part of the rows, for the iterator of function operators on up to 64 qubits, for the sparse constructors and invert_op, and for full_to_sub, sub_to_full, flip_bits, extract_bits and entwine_bits. The bound is sharp. From 64 qubits on a debug build panics, and a release build returns a vector of 2^(n mod 64) amplitudes: after x on the first of 64 qubits it returns a single 0. For 32 indices make_matrix_op panics in a debug build and takes a matrix of one entry in a release build.", "quantifier": "debug and release builds, every well formed operator whose vectors are shorter than 2^63, every number of qubits, offset, state, circuit, initial value and random draw; every history of builder calls", "why_tests_cant": "Vectors of 2^n amplitudes cannot be allocated near the bound, and tests are run in one kind of build.", "anchors": ["qip-iterators/src/utils.rs:3-55", "qip-iterators/src/matrix_ops.rs:12-219", "qip-iterators/src/iterators/qubit_iterators.rs:8-271", "qip-iterators/src/iterators/qubit_multi_iterator.rs:6-79", "qip-iterators/src/iterators/iterator_mapper.rs:8-31", "qip-iterators/src/iterators/ops.rs:24-156", "qip/src/utils.rs:21-60", "qip/src/state_ops/measurement_ops.rs:44-269", "qip/src/builder.rs:388-507", "qip/src/state_ops/matrix_ops.rs:12-201"]}
{"id": "C105", "title": "The numbers of qubits and the order of allocation do not matter", "statement": "If the qubits of a builder and of the registers held by its client are given other numbers, every later list of builder calls other than split_register_absolute returns, fails and panics as before, and appends the same objects on the renamed qubits. Simulation of the renamed circuit from the renamed initial values gives the state with its qubits renamed: the amplitude of a basis state is that of the basis state with the old numbers. The outcomes of its measurements have the same joint distribution. So the order in which a program allocates its registers does not matter: with any other order the rest of the program gives the same circuit on renamed qubits.", "quantifier": "every renaming of the qubits of a builder, every builder and client, every list of builder calls other than split_register_absolute, every initial value, every list of outcomes; every list of register sizes and every order of allocation", "why_tests_cant": "There are n! orders of the qubits of each program, and the distributions are over all random draws.", "anchors": ["qip/src/builder.rs", "qip/src/builder_traits.rs", "qip/src/conditioning.rs", "qip/src/lib.rs"]}
{"id": "C106", "title": "Measuring a merged register is measuring its parts, in any order", "statement": "Anywhere in a circuit, measuring the merged register of ra and rb and measuring ra and then rb come to the same: outcome m of the former corresponds to the outcomes m mod 2^|ra| and m div 2^|ra| of the latter, they have the same probability jointly with all other outcomes of the circuit, runs that give them end in the same vector and report probabilities with the same product. The same holds for a measurement of the qubits of a register in another order, with the bits of the outcome in that order, and for two measurements next to each other in either order, even of shared qubits. An initial value for a merged register gives the same result as its low bits for the first part and its high bits for the second.", "quantifier": "every circuit of gates and measurements before and after, every pair of registers, every outcome of all measurements, every initial value, every sequence of draws", "why_tests_cant": "The draws pick different outcomes in the two programs, so that runs cannot be compared one by one; the claim is about probabilities over all draws.", "anchors": ["qip/src/builder.rs:388-507", "qip/src/state_ops/measurement_ops.rs:44-269", "qip/src/builder.rs:329-333"]}
{"id": "C107", "title": "A measurement may be put off past gates that do not change its qubits", "statement": "If a block of gates takes no basis state to one with another value of a measured qubit, the measurement may be made before or after the block: the outcomes of all measurements of the circuit have the same joint distribution, and runs that give the same outcomes end in the same vector. Gates on other qubits, the diagonal gates z, s, t and rz, and controlled nots with a measured qubit as control make such blocks.", "quantifier": "every circuit of gates and measurements, every block of gates in it, every set of measured qubits, every outcome, initial value and sequence of draws", "why_tests_cant": "As for C106, runs of the two programs cannot be compared one by one.", "anchors": ["qip/src/builder.rs:388-507", "qip/src/state_ops/measurement_ops.rs:44-269"]}
{"id": "C108", "title": "The constructors that check nothing build the operator their arguments describe", "statement": "MatrixOp::new_matrix and new_sparse give the operator of the matrix on the indices; new_swap exchanges its two lists of qubits, also empty ones, and panics in a debug build when their lengths differ. new_control applies the operator within to the indices r, whatever indices that operator was made with, where all control qubits are 1, and changes nothing elsewhere; with no controls it always applies it, and with the operator's own indices it gives the same vector as make_control_op.", "quantifier": "every number type with the semiring laws, every number of qubits, index list, matrix, inner operator and state vector", "why_tests_cant": "unbounded sizes, nesting and values; the inner indices being ignored shows only when they differ from r", "anchors": ["qip-iterators/src/iterators/ops.rs:48-91", "qip-iterators/src/matrix_ops.rs: apply_op_overwrite"]}
{"id": "C109", "title": "An operator on a qubit that the state does not have", "statement": "apply_op and apply_op_overwrite with a qubit index q >= n: a debug build panics. A release build does not notice: it computes what the call computes on a state of 64 qubits whose last n are those of the state, the qubit q being one of the leading ones, and returns the rows asked for. So an operator on one qubit with n <= q < 64 multiplies every amplitude by its first entry (a not gives the zero vector), and an operator controlled by such a qubit changes nothing. flip_bits of 0 or more than 64 bits panics in a debug build; in a release build it reverses ((n + 63) mod 64) + 1 bits.", "quantifier": "every number type (with the semiring laws where the matrix is named), operator with at most 63 indices whose vectors are shorter than 2^63, index and number of qubits below 2^64, offsets and vectors", "why_tests_cant": "Tests run in one kind of build, and the panic of the debug build hides what the release build returns.", "anchors": ["qip-iterators/src/matrix_ops.rs:12-30", "qip-iterators/src/matrix_ops.rs:62-152", "qip-iterators/src/utils.rs:20-55"]}
{"id": "C110", "title": "The Debug text of an operator tells its kind and its qubits", "statement": "Two operators have the same Debug text exactly when they have the same kinds (matrix, sparse matrix, swap, controlled), the same nesting and the same lists of qubits shown. For operators of make_matrix_op, make_sparse_matrix_op, make_swap_op and make_control_op the text determines the qubits the operator acts on; the text of a swap determines the swap. For MatrixOp::new_control it does not: the text shows the qubits that the inner operator was made with and not those it is applied to, so operators on different qubits have the same text. Debug panics exactly when some control count exceeds its list of indices.", "quantifier": "every pair of operators, of any number types, nesting and indices", "why_tests_cant": "The claim that different operators have different texts is about all pairs of operators.", "anchors": ["qip-iterators/src/iterators/ops.rs:159-179", "qip/src/state_ops/matrix_ops.rs:12-122"]}
{"id": "C111", "title": "The lines of the modular circuits add up to what is documented", "statement": "Each of add_mod, times_mod, square_mod and exp_mod is a program! whose lines call other functions. Read line by line on the values of the registers, every function called doing what its own documentation says (exp_mod read with its own lines where it calls itself), never called outside of it, and every temporary register 0 again when it is returned, the lines give the documented result: (a+b) mod M, (p + b a) mod M, (s + a a) mod M, and p a^b mod M.", "quantifier": "every register size, every number of multiplier and exponent qubits, all values a, b, p, s below M where documented", "why_tests_cant": "Conditioned add_inv does not undo conditioned add (C71), so that running these functions cannot tell a mistake in their lines from one in the gates; and the claim is for all sizes and values.", "anchors": ["qip/src/boolean_circuits/arithmetic.rs:91-340"]}
{"id": "C112", "title": "On basis states a program! does what its lines say", "statement": "Give every function a name and a meaning on the values of its registers, a partial function from lists of bits to lists of bits. Read a program! line by line: fetch the values of the arguments, apply the meaning of the function where the control qubits equal the mask (bit i of the mask for qubit i; all 1 without a mask), store the results. If every function called does what is said of it on the registers it is given, then from any basis state the program gives the basis state that reading its lines gives, whatever else is in the state, and leaves all other qubits as they are. This holds at any nesting of conditions. With the documented meanings: x on one qubit, copy, copy_inv, rshift (lshift for two or more qubits) do what is documented at any depth of conditions, add and add_inv on a builder without conditions.", "quantifier": "for all programs, registers, names, meanings that keep sizes, depths of conditions and states", "why_tests_cant": "a test runs one program on a few values; this is about every program! there is, and about superpositions with everything around it", "anchors": ["qip-macros/src/lib.rs:91-365", "qip/src/boolean_circuits/arithmetic.rs:26-59", "qip/src/boolean_circuits/arithmetic.rs:195-250"]}
{"id": "C113", "title": "An operator on consecutive qubits is a Kronecker product with identities", "statement": "For a dense operator on the k qubits b..b+k-1 of b+k+a qubits, apply_op into zeros gives the matrix I(2^b) (x) D (x) I(2^a) times the input vector, where D is the data read as rows and (x) the textbook Kronecker product of matrices as lists of rows; make_op_matrix gives that matrix with rows and columns exchanged. With one control on the qubit in front, D is replaced by the direct sum of an identity and D. The same for any operator on consecutive qubits whose entries are those of a table.", "quantifier": "every number of qubits before, inside and behind, every data and every vector, over every number type with semiring laws", "why_tests_cant": "The repository's tests compare with ndarray's Kronecker product for two and three and four qubits and six matrices.", "anchors": ["qip/src/state_ops/measurement_ops.rs:98-123", "qip/src/state_ops/matrix_ops.rs:240-258", "qip/src/state_ops/matrix_ops.rs:102-130"]}
{"id": "C114", "title": "The repository's unit and documentation tests pass on the model", "statement": "Each of the assertions of the active unit tests (iterators, multi iterator, apply_op against Kronecker products, bit functions, get_index, sparse endianness, measurement) and of the documentation tests with asserts (flip_bits, set_bit, get_bit, entwine_bits, extract_bits, measure_prob, soft_measure, split_relative_index_groups) holds of the modelled functions; floating-point numbers are real or whole numbers. The Kronecker helper comparison holds for every matrix and every number of qubits around it. The documentation test of soft_measure holds for every draw in (0, 1) and fails for the draw 0.", "quantifier": "the tests as written; every matrix and number of qubits for the Kronecker comparison, every draw for soft_measure", "why_tests_cant": "The test of soft_measure in the documentation fails only when the random draw is 0, which no run will see; the others tie the model to what the repository's authors expect.", "anchors": ["qip/src/state_ops/measurement_ops.rs:221-378", "qip-iterators/src/iterators/qubit_iterators.rs:273-378", "qip-iterators/src/iterators/qubit_multi_iterator.rs:81-205", "qip/src/state_ops/matrix_ops.rs:260-366", "qip/src/state_ops/measurement_ops.rs:26-42", "qip/src/state_ops/measurement_ops.rs:138-151", "qip/src/state_ops/measurement_ops.rs:271-339", "qip-iterators/src/utils.rs:10-52", "qip/src/utils.rs:10-55", "qip/src/builder_traits.rs:157-176"]}
{"id": "C115", "title": "Operators in turn are the product of their tables", "statement": "make_op_matrix of an operator, with rows and columns exchanged, is the data of a dense operator on all qubits that does exactly what the operator does. Applying any list of operators (dense, sparse, swap, controlled, on any qubits) one after the other is applying one dense operator whose data is the textbook product of their tables, the first rightmost. Two operators on the same qubits with the same entries give the same results however the entries are stored, also on windows of the state.", "quantifier": "every list of well-formed operators with distinct qubits in range, every number of qubits, every vector, every number type with semiring laws", "why_tests_cant": "all operators, sequences and vectors; the tests apply single operators only", "anchors": ["qip/src/state_ops/measurement_ops.rs:98-123", "qip/src/state_ops/matrix_ops.rs:240-258", "qip-iterators/src/iterators/ops.rs:100-156"]}
{"id": "C116", "title": "A state kept in pieces is simulated as the whole", "statement": "A client that cuts the state vector into pieces of any lengths (empty ones included), applies each operator by adding the contribution of every old piece to every new piece, adds up measure_prob over the pieces, and collapses each piece with measure_state and the total probability, gets the pieces of the vector, and the probabilities, that the same steps on one vector give; the cut may change at every operator. A recorded circuit run this way, with the outcomes the simulator drew, ends in the pieces of the simulator's state with the probabilities it reports. Choosing a piece by its weight and calling soft_measure on it follows Born's rule for the whole. measure_state with two windows that have a gap between them panics instead of leaving the output alone.", "quantifier": "every number of qubits, every sequence of well-formed operators and collapses, every cut of the vector at every step, every initial state; recorded circuits with positive draws", "why_tests_cant": "all cuts, circuits and offsets; no test passes an offset", "anchors": ["qip/src/state_ops/measurement_ops.rs:98-123", "qip/src/state_ops/measurement_ops.rs:44-127", "qip/src/state_ops/measurement_ops.rs:153-176", "qip/src/state_ops/measurement_ops.rs:220-269", "qip/src/builder.rs:388-507"]}
{"id": "C117", "title": "A piece of the state is weighed, measured and collapsed correctly in floating point", "statement": "With f32 or f64 amplitudes, for a window of the state that starts at an offset: prob_magnitude is within (3M+3)u W + 10 M eta of the exact weight W of the M amplitudes held, in whatever order they are added; measure_prob is within (3M+3)u p + 10 M eta of the exact sum p over the amplitudes held that show the outcome; soft_measure with a draw clear of the boundaries between the weights (scaled by the weight of the piece) by 12(M+1)u + 20(M+1) eta reports the outcome of the right basis state, counted from the offset; measure_state of one window into another gives each number of the overlap within 7u of the exact collapsed one (relative, plus 2 eta) and leaves the others untouched.", "quantifier": "every window, offset, register, outcome, draw and format", "why_tests_cant": "all roundings and continuous draws", "anchors": ["qip/src/state_ops/measurement_ops.rs: prob_magnitude, measure_prob, soft_measure, measure_state"]}
{"id": "C118", "title": "Any operator is applied to a vector of floats within rounding of the exact one", "statement": "With f32 or f64 numbers, apply_op_overwrite with a dense, sparse or swap operator under any number of nested controls, from a window of the state to a window of the output, returns finite numbers, each within (5+3L)u S + 10 L eta of the exact amplitude, where L is the largest number of entries of a row and S is the same row with moduli in place of all numbers; apply_op, which adds to the output, is within 2u times the exact result plus (6+4L)u S + (11L+2) eta.", "quantifier": "every operator of finite numbers, state, window, offset and format with row weights at most 16 and 32(L+3)u <= 1", "why_tests_cant": "all roundings of all operators and vectors", "anchors": ["qip-iterators/src/matrix_ops.rs: apply_op_row_indices, apply_op, apply_op_overwrite", "qip-iterators/src/qubit_iterators.rs: MatrixOpIterator, SparseMatrixOpIterator, SwapOpIterator, ControlledOpIterator"]}
{"id": "C119", "title": "The circuit of the Fourier transform, its cost, and what it gives in floating point", "statement": "On an unconditioned builder qfft of a register of 1 to 63 distinct qubits appends exactly this circuit, whatever the builder holds and whatever conditions are open around it, and changes nothing else: for each qubit in turn one rotation by 1/2^(j-i) for every later qubit j (on the qubit itself, with no control) and a Hadamard, then three cnots for each exchange of the two ends. No qubit is allocated and n(n+1)/2 + 3 floor(n/2) objects are recorded. Simulated in floating point, every amplitude is finite and within 2 n(n+1)/2 (44u + 10d + ...) of the exact amplitude of C61.", "quantifier": "all registers of 1 to 63 qubits and all builder states; all formats with prec, emax >= 8, all platforms accurate to d, all basis states", "why_tests_cant": "The circuit grows with the square of the register, and tests see the state, not which rotations lost their condition; the floating-point bound is for every size and start state.", "anchors": ["qip/src/qfft.rs:7-40", "qip/src/conditioning.rs:157-159", "qip/src/builder.rs:636-648"]}
{"id": "C120", "title": "What programs, the adder and the modular adder cost, under any number of conditions", "statement": "A program! call at any depth holds at once as many temporaries as its greediest line and records as many objects as its lines together: a control register adds its qubits to the conditions its function is called under, and a mask negates each control qubit at a cleared bit before and after, under the outer conditions. Hence add and add_inv of n-bit numbers under c condition qubits hold exactly c temporaries and record n(carry + sum) + (n-1) uncarry and n(sum + uncarry) + (n-1) recarry objects, where each part is given by the cost of a negation under so many conditions; add_mod holds n + c + 2 temporaries, and without conditions records 2756 n - 2290 objects. Spare temporaries are used before new qubits are allocated, and all of them are spare again afterwards.", "quantifier": "all programs whose lines have a cost, all depths, numbers of condition qubits, widths and builder states, whatever other qubits are live", "why_tests_cant": "Tests run small unconditioned cases and look at results; how qubits and objects grow with the width and with the nesting of conditions is not observed by any test.", "anchors": ["qip/src/boolean_circuits/arithmetic.rs:26-131", "qip-macros/src/lib.rs:91-365", "qip/src/macros/program.rs:6-22", "qip/src/conditioning.rs:60-120"]}
{"id": "C121", "title": "What shifts, copies, the modular product, the modular square and a one-bit modular power cost", "statement": "Under c condition qubits, whatever else is live: rshift and lshift of n+1 qubits record 3n negations under c+1 conditions and hold c-1 temporaries, copy and copy_inv of n qubits record n such negations; times_mod with a multiplier of k bits and a modulus of n bits holds exactly k + 2n + c + 3 temporaries at once and records k rounds, each consisting of a subtraction, an addition and a modular addition and their conditioned counterparts, two conditioned negations and two shifts, so that without conditions it holds k + 2n + 3 temporaries and records k(26570 n - 19516) objects, and a round under one condition has 80902 n - 58160; square_mod holds n temporaries more than times_mod with k = n and records two copies more; exp_mod with a one-bit exponent costs a product under one condition more, a conditioned copy of n+1 qubits and two negations of the exponent bit. All temporaries are given back and every register returns unchanged in its qubits.", "quantifier": "all depths, numbers of condition qubits, widths, numbers of multiplier bits and builder states, whatever other qubits are live", "why_tests_cant": "Products of any useful width have far too many objects and qubits to run in a test; their size can only be known by proof.", "anchors": ["qip/src/boolean_circuits/arithmetic.rs:133-340", "qip-macros/src/lib.rs:91-365", "qip/src/conditioning.rs:60-120"]}
{"id": "C122", "title": "What the Fourier transform costs under any number of conditions", "statement": "qfft of a register of n qubits (at most 63) on a builder with c condition qubits, at any depth of conditioning and whatever other qubits are live and whatever is in the store of spare temporaries: returns the register, keeps the conditions, leaves every live qubit live and gives back every temporary; holds at most c-2 temporaries for one qubit and c-1 for more; and adds to the pipeline exactly n(n-1)/2 rotations, n Hadamard gates and n/2 exchanges of three negations each, where a Hadamard gate is one object without conditions and 13 under one, a negation 1 and 21. So n(n-1)/2 + n + 3(n/2) objects without conditions and n(n-1)/2 + 13n + 63(n/2) under one; the rotations take one object each whatever the conditions are, since they are recorded without them.", "quantifier": "all depths, numbers of condition qubits, register widths up to 63, qubit orders and builder states, whatever other qubits are live", "why_tests_cant": "The circuit grows with the square of the register and with the number of conditions, and the missing conditions of the rotations leave a size no test would question.", "anchors": ["qip/src/qfft.rs:7-40", "qip/src/conditioning.rs:60-159"]}
