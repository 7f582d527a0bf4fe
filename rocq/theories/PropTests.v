(** Property C114: the repository's unit tests and documentation tests, run on the model.
    The tests commented out in the repository (inverter.rs, arithmetic.rs) are not here. *)
From Coq Require Import ZArith Reals Lra.
From Coquelicot Require Import Complex.
From Verif Require Import Base BitsModel BitsSpec BitsProofs OpsModel OpsSpec OpsProofs StateOpsModel ConjSpec ConjProofs Instances OpsFinal MatProofs
  MeasureModel BuilderModel KronSpec KronProofs.

(** *** C114 *)
(** The comparison made by the tests of qip-iterators/src/matrix_ops.rs:247-267: the flattened
    op matrix with its axes reversed against Kronecker products with the 2 by 2 identity, one at
    a time, before and after.  For every dense matrix and every number of qubits around it. *)
Definition kron_helper {P} (N : num P) (before : nat) (m : list (list P)) (after : nat) : list (list P) :=
  Nat.iter after (fun A => kron N A (ident N 2)) (Nat.iter before (kron N (ident N 2)) m).
Definition flat_matrix {P} (N : num P) (n : nat) (op : mop P) : res (list (list P)) :=
  bind (make_op_matrix N n op) (fun m => Ok (flip N (2 ^ n) m)).
Theorem C114_kron_helper : forall P (N : num P), num_laws N -> forall before k after (data : list P), length data = 2 ^ (2 * k) ->
  flat_matrix N (before + k + after) (Matrix (seq before k) data) = Ok (kron_helper N before (square_of (2 ^ k) data) after).
Proof.
  intros P N L b k a data Hd. destruct (dense_cells N (seq b k) data) as [HT HC]; [rewrite seq_length; exact Hd|]. rewrite seq_length in HT, HC. unfold flat_matrix.
  rewrite (table_padded N L b k a (Matrix (seq b k) data) (square_of (2 ^ k) data)); [|cbn; rewrite seq_length; exact Hd|reflexivity|exact HT|exact HC].
  cbn [bind]. rewrite flip_flip by (apply shape_padded; exact HT). unfold kron_helper. rewrite (helper_padded N L b _ a k HT). reflexivity.
Qed.
Print Assumptions C114_kron_helper.

(** qip-iterators/src/matrix_ops.rs:269-378 *)
Definition hopping : list Z := [1; 0; 0; 0; 0; 0; 1; 0; 0; 1; 0; 0; 0; 0; 0; 1]%Z.
Definition to15 : list Z := map Z.of_nat (seq 0 16).
Theorem C114_matrix_tests :
  (* test_ident, test_flip, test_flip_mid, test_flip_end *)
  flat_matrix ZN 3 (new_matrix [0] [1; 0; 0; 1]%Z) = Ok (kron_helper ZN 0 [[1; 0]; [0; 1]]%Z 2) /\
  flat_matrix ZN 3 (new_matrix [0] [0; 1; 1; 0]%Z) = Ok (kron_helper ZN 0 [[0; 1]; [1; 0]]%Z 2) /\
  flat_matrix ZN 3 (new_matrix [1] [0; 1; 1; 0]%Z) = Ok (kron_helper ZN 1 [[0; 1]; [1; 0]]%Z 1) /\
  flat_matrix ZN 3 (new_matrix [2] [0; 1; 1; 0]%Z) = Ok (kron_helper ZN 2 [[0; 1]; [1; 0]]%Z 0) /\
  (* test_flip_mid_twobody, test_counting *)
  flat_matrix ZN 4 (new_matrix [1; 2] hopping) = Ok (kron_helper ZN 1 (square_of 4 hopping) 1) /\
  flat_matrix ZN 3 (new_matrix [0] [1; 2; 3; 4]%Z) = Ok (kron_helper ZN 0 [[1; 2]; [3; 4]]%Z 2) /\
  (* test_counting_order, test_counting_order_flipped *)
  flat_matrix ZN 2 (new_matrix [0; 1] to15) = Ok (square_of 4 to15) /\
  (exists m, flat_matrix ZN 2 (new_matrix [1; 0] to15) = Ok m /\ m <> square_of 4 to15).
Proof.
  repeat match goal with |- _ /\ _ => split end; try (vm_compute; reflexivity).
  eexists. split; [vm_compute; reflexivity|]. vm_compute. discriminate.
Qed.
Print Assumptions C114_matrix_tests.

(** A row of zeros with a one at every column the iterator gives. *)
Definition ones_row (n : nat) (items : res (list (nat * Z))) : res (list nat) :=
  bind items (fun l => foldM (fun v '(c, _) => if c <? length v then Ok (upd_nth c 1 v) else Panic PIndex) l (repeat 0 (2 ^ n))).
Definition run_iter (fuel : nat) (it : res (iter (P := Z))) : res (list (nat * Z)) := bind it (fun i => collect fuel i (it_init i)).
(** qip-iterators/src/iterators/qubit_iterators.rs:290-378 *)
Theorem C114_iterator_tests :
  (* test_mat_iterator *)
  mapM (fun i => ones_row 1 (run_iter 9 (mat_iter ZN i 1 [0; 1; 1; 0]%Z))) (seq 0 2) = Ok [[0; 1]; [1; 0]] /\
  (* test_sparse_mat_iterator *)
  mapM (fun i => ones_row 1 (run_iter 9 (sparse_iter i [[(1, 1%Z)]; [(0, 1%Z)]]))) (seq 0 2) = Ok [[0; 1]; [1; 0]] /\
  (* test_swap_iterator *)
  mapM (fun i => ones_row 2 (run_iter 9 (swap_iter ZN i 2))) (seq 0 4) = Ok [[1; 0; 0; 0]; [0; 0; 1; 0]; [0; 1; 0; 0]; [0; 0; 0; 1]] /\
  (* test_c_iterator *)
  mapM (fun i => ones_row 2 (run_iter 9 (ctrl_iter ZN i 1 1 (fun r => mat_iter ZN r 1 [0; 1; 1; 0]%Z)))) (seq 0 4) =
    Ok [[1; 0; 0; 0]; [0; 1; 0; 0]; [0; 0; 0; 1]; [0; 0; 1; 0]].
Proof. vm_compute. repeat split. Qed.
Print Assumptions C114_iterator_tests.

(** qip-iterators/src/iterators/qubit_multi_iterator.rs:87-205 *)
Definition run_multi (ns : list nat) (outs : list (list (nat * Z))) : res (list (nat * Z)) := run_iter 9 (Ok (multi_iter ZN ns outs)).
Definition negbit (i k : nat) : nat := if Nat.testbit i k then 0 else 1.
Theorem C114_multi_iterator_tests :
  (* test_trivial, test_nontrivial, test_nontrivial_other *)
  run_multi [1; 1] [[(1, 1%Z)]; [(0, 1%Z)]] = Ok [(2, 1%Z)] /\
  run_multi [1; 1] [[(0, 1%Z); (1, 1%Z)]; [(0, 1%Z)]] = Ok [(0, 1%Z); (2, 1%Z)] /\
  run_multi [1; 1] [[(0, 1%Z)]; [(0, 1%Z); (1, 1%Z)]] = Ok [(0, 1%Z); (1, 1%Z)] /\
  (* test_mat_iterator *)
  mapM (fun i => ones_row 1 (run_multi [1] [[(1 - i, 1%Z)]])) (seq 0 2) = Ok [[0; 1]; [1; 0]] /\
  (* test_double_mat_identity, test_double_mat_swap *)
  mapM (fun i => ones_row 2 (run_multi [1; 1] [[(Nat.shiftr (Nat.land i 2) 1, 1%Z)]; [(Nat.land i 1, 1%Z)]])) (seq 0 4) =
    Ok [[1; 0; 0; 0]; [0; 1; 0; 0]; [0; 0; 1; 0]; [0; 0; 0; 1]] /\
  mapM (fun i => ones_row 2 (run_multi [1; 1] [[(negbit i 1, 1%Z)]; [(negbit i 0, 1%Z)]])) (seq 0 4) =
    Ok [[0; 0; 0; 1]; [0; 0; 1; 0]; [0; 1; 0; 0]; [1; 0; 0; 0]].
Proof. vm_compute. repeat split. Qed.
Print Assumptions C114_multi_iterator_tests.

(** qip/src/state_ops/matrix_ops.rs:264-366 *)
Definition has_indices (op : mop Z) (l : list nat) : Prop :=
  num_indices op = Ok (length l) /\ forall i, i < length l -> idx (op_indices op) i = Ok (nth i l 0).
Theorem C114_state_ops_tests :
  (* test_get_bit, test_set_bit *)
  get_bit 1 1 = false /\ get_bit 1 0 = true /\ set_bit 1 0 true = 1 /\ set_bit 1 1 true = 3 /\
  (* test_get_index_simple, test_get_index_condition, test_get_index_swap *)
  has_indices (new_matrix [0; 1; 2] []) [0; 1; 2] /\
  (exists op, make_control_op [0; 1] (new_matrix [2; 3] []) = Ok op /\ has_indices op [0; 1; 2; 3]) /\
  (exists op, new_swap [0; 1] [2; 3] = Ok op /\ has_indices op [0; 1; 2; 3]) /\
  (* test_apply_identity, test_apply_swap_mat, test_apply_swap_mat_first *)
  apply_op ZN 1 (new_matrix [0] [1; 0; 0; 1]%Z) [1; 0]%Z [0; 0]%Z 0 0 = Ok [1; 0]%Z /\
  apply_op ZN 1 (new_matrix [0] [0; 1; 1; 0]%Z) [1; 0]%Z [0; 0]%Z 0 0 = Ok (rev [1; 0]%Z) /\
  apply_op ZN 2 (new_matrix [0] [0; 1; 1; 0]%Z) [1; 0; 0; 0]%Z [0; 0; 0; 0]%Z 0 0 = Ok [0; 0; 1; 0]%Z /\
  apply_op ZN 2 (new_matrix [1] [0; 1; 1; 0]%Z) [1; 0; 0; 0]%Z [0; 0; 0; 0]%Z 0 0 = Ok [0; 1; 0; 0]%Z /\
  (* test_make_sparse_mat *)
  (let one := 1%Z in let expected := [[(1, one)]; [(0, one)]; [(3, one)]; [(2, one)]] in
   make_sparse_matrix_op [0; 1] expected BigEndian = Ok (Sparse [0; 1] expected) /\
   make_sparse_matrix_op [0; 1] [[(2, one)]; [(3, one)]; [(0, one)]; [(1, one)]] LittleEndian = Ok (Sparse [0; 1] expected)).
Proof.
  assert (X : forall op l, num_indices op = Ok (length l) -> op_indices op = l -> has_indices op l).
  { intros op l E <-. split; [exact E|]. intros i Hi. unfold idx. rewrite (nth_error_nth' _ 0 Hi). reflexivity. }
  repeat match goal with |- _ /\ _ => split end; try (vm_compute; reflexivity).
  - apply X; reflexivity.
  - eexists. split; [reflexivity|]. apply X; reflexivity.
  - eexists. split; [reflexivity|]. apply X; reflexivity.
  - vm_compute. split; reflexivity.
Qed.
Print Assumptions C114_state_ops_tests.

(** Documentation tests: qip-iterators/src/utils.rs, qip/src/utils.rs and
    qip/src/builder_traits.rs:157-176. *)
Theorem C114_doc_tests :
  flip_bits 3 4 = Ok 1 /\ flip_bits 3 2 = Ok 2 /\ flip_bits 4 10 = Ok 5 /\
  set_bit 0 1 true = 2 /\ set_bit 1 1 true = 3 /\ set_bit 1 0 false = 0 /\ get_bit 2 1 = true /\
  entwine_bits 3 2 1 1 = 3 /\ extract_bits 10 [3; 0] = 1 /\
  (exists s1 s2, qudit 5 (mkSt empty_builder []) = Ret (Some [0; 1; 2; 3; 4]) s1 /\ exists rb, qudit 5 s1 = Ret (Some rb) s2 /\
     split_groups rb [[0; 1]; [2; 3]] = Ok (Remaining [[5; 6]; [7; 8]] [9])).
Proof.
  repeat match goal with |- _ /\ _ => split end; try (vm_compute; reflexivity).
  do 2 eexists. split; [reflexivity|]. eexists. split; [reflexivity|]. reflexivity.
Qed.
Print Assumptions C114_doc_tests.

(** qip/src/state_ops/measurement_ops.rs:290-339 and the documentation tests at 26-42 and 138-151.
    Random draws lie in [0, 1). *)
Lemma is0_0 : C_is0 (RtoC 0) = true.
Proof. unfold C_is0. destruct (Ceq_dec _ _); [reflexivity|congruence]. Qed.
Lemma is0_not r : (r <> 0)%R -> C_is0 (RtoC r) = false.
Proof. intros H. unfold C_is0. destruct (Ceq_dec _ _) as [E|E]; [|reflexivity]. injection E as E. contradiction. Qed.
Definition halves : list C := map RtoC [/2; /2; /2; /2]%R.
Definition one_zero : list C := map RtoC [0; 0; 1; 0]%R.
Ltac run := unfold measure_probs, measure_prob, measure_prob_fn, prob_item, halves, one_zero; cbn -[RtoC C_is0 norm_sqr Rplus Rinv nsum];
  rewrite ?is0_0, ?(is0_not (/ 2)), ?(is0_not 1) by lra;
  repeat match goal with |- context [?a <? ?b] => let v := eval vm_compute in (a <? b) in change (a <? b) with v end;
  cbn -[RtoC C_is0 norm_sqr Rplus Rinv nsum]; repeat f_equal; unfold nsum, norm_sqr; cbn -[Rplus Rinv Rmult]; lra.
Theorem C114_measurement_tests :
  (* test_measure_state, test_measure_state2, test_measure_probs *)
  measure_prob 2 0 [0] halves 0 = Ok (/ 2)%R /\ measure_state 2 [0] (0, (/ 2)%R) halves halves 0 0 = Ok (map RtoC [sqrt (/ 2); sqrt (/ 2); 0; 0]%R) /\
  measure_prob 2 1 [0] halves 0 = Ok (/ 2)%R /\ measure_state 2 [0] (1, (/ 2)%R) halves halves 0 0 = Ok (map RtoC [0; 0; sqrt (/ 2); sqrt (/ 2)]%R) /\
  measure_probs 2 [1] halves 0 = Ok [/ 2; / 2]%R /\
  (* measure_prob *)
  measure_prob 2 0 [0] one_zero 0 = Ok 0%R /\ measure_prob 2 1 [0] one_zero 0 = Ok 1%R /\
  measure_prob 2 1 [0; 1] one_zero 0 = Ok 1%R /\ measure_prob 2 2 [1; 0] one_zero 0 = Ok 1%R.
Proof.
  assert (S : (/ 2 * (1 / sqrt (/ 2)) = sqrt (/ 2))%R).
  { assert (0 < sqrt (/ 2))%R by (apply sqrt_lt_R0; lra). assert (E : (sqrt (/ 2) * sqrt (/ 2) = / 2)%R) by (apply sqrt_sqrt; lra). rewrite <- E at 1. field. lra. }
  assert (Sc : Cmult (RtoC (/ 2)) (RtoC (1 / sqrt (/ 2))) = RtoC (sqrt (/ 2))) by (rewrite <- RtoC_mult, S; reflexivity).
  repeat match goal with |- _ /\ _ => split end; try run.
  - unfold measure_state. destruct (Req_EM_T (/ 2) 0) as [E|_]; [lra|]. unfold halves. cbn -[RtoC Cmult Rdiv Rinv sqrt]. unfold state_cell. cbn -[RtoC Cmult Rdiv Rinv sqrt]. rewrite Sc. reflexivity.
  - unfold measure_state. destruct (Req_EM_T (/ 2) 0) as [E|_]; [lra|]. unfold halves. cbn -[RtoC Cmult Rdiv Rinv sqrt]. unfold state_cell. cbn -[RtoC Cmult Rdiv Rinv sqrt]. rewrite Sc. reflexivity.
Qed.
Print Assumptions C114_measurement_tests.
Lemma soft_one_zero r is : soft_measure r 2 is one_zero 0 =
  bind (mapM (fun i => bind (chk_sub 2 1) (fun n1 => chk_sub n1 i)) is) (fun ps => Ok (extract_bits (soft_scan (r * 1) 0 one_zero 0) ps)).
Proof. reflexivity. Qed.
(** soft_measure: as documented for every draw but 0. *)
Theorem C114_soft_measure_partial : forall r, (0 < r < 1)%R ->
  soft_measure r 2 [0] one_zero 0 = Ok 1 /\ soft_measure r 2 [1] one_zero 0 = Ok 0 /\
  soft_measure r 2 [0; 1] one_zero 0 = Ok 1 /\ soft_measure r 2 [1; 0] one_zero 0 = Ok 2.
Proof.
  intros r Hr. assert (E : soft_scan (r * 1) 0 one_zero 0 = 2).
  { unfold one_zero. cbn [map soft_scan]. unfold norm_sqr, RtoC. cbn [fst snd]. repeat (destruct (Rle_dec _ _); try lra). reflexivity. }
  rewrite !soft_one_zero, E. repeat split; reflexivity.
Qed.
Print Assumptions C114_soft_measure_partial.
Theorem C114_soft_measure_refuted : soft_measure 0 2 [0] one_zero 0 = Ok 0.
Proof.
  assert (E : soft_scan (0 * 1) 0 one_zero 0 = 0).
  { unfold one_zero. cbn [map soft_scan]. unfold norm_sqr, RtoC. cbn [fst snd]. repeat (destruct (Rle_dec _ _); try lra). reflexivity. }
  rewrite soft_one_zero, E. reflexivity.
Qed.
Print Assumptions C114_soft_measure_refuted.
