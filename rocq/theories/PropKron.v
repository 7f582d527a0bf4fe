(** Property C113: an operator on consecutive qubits is a Kronecker product with identities. *)
From Coq Require Import ZArith.
From Verif Require Import Base BitsSpec BitsProofs OpsModel OpsSpec OpsProofs StateOpsModel ConjSpec ConjProofs Instances OpsFinal MatProofs KronSpec KronProofs.

(** *** C113 *)
(** A dense matrix on the [k] qubits from [b] on, with [a] qubits behind them. *)
Theorem C113_dense : forall P (N : num P), num_laws N -> forall b k a (data v : list P),
  length data = 2 ^ (2 * k) -> length v = 2 ^ (b + k + a) ->
  apply_op N (b + k + a) (Matrix (seq b k) data) v (repeat (n0 N) (2 ^ (b + k + a))) 0 0 =
  Ok (mat_vec N (kron N (ident N (2 ^ b)) (kron N (square_of (2 ^ k) data) (ident N (2 ^ a)))) v).
Proof.
  intros P N L b k a data v Hd Hv. destruct (dense_cells N (seq b k) data) as [HT HC]; [rewrite seq_length; exact Hd|]. rewrite seq_length in HT, HC.
  apply (apply_padded N L b k a _ (square_of (2 ^ k) data)); [cbn; rewrite seq_length; exact Hd|reflexivity|exact HT|exact HC|exact Hv].
Qed.
Print Assumptions C113_dense.
(** make_op_matrix gives that matrix with rows and columns exchanged. *)
Theorem C113_dense_table : forall P (N : num P), num_laws N -> forall b k a (data : list P),
  length data = 2 ^ (2 * k) ->
  make_op_matrix N (b + k + a) (Matrix (seq b k) data) =
  Ok (flip N (2 ^ (b + k + a)) (kron N (ident N (2 ^ b)) (kron N (square_of (2 ^ k) data) (ident N (2 ^ a))))).
Proof.
  intros P N L b k a data Hd. destruct (dense_cells N (seq b k) data) as [HT HC]; [rewrite seq_length; exact Hd|]. rewrite seq_length in HT, HC.
  apply (table_padded N L b k a _ (square_of (2 ^ k) data)); [cbn; rewrite seq_length; exact Hd|reflexivity|exact HT|exact HC].
Qed.
Print Assumptions C113_dense_table.
(** One control on qubit [b] in front of a dense matrix on the [k] qubits behind it: the direct
    sum of an identity and the matrix. *)
Theorem C113_control : forall P (N : num P), num_laws N -> forall b k a (data v : list P),
  length data = 2 ^ (2 * k) -> length v = 2 ^ (b + S k + a) ->
  exists cop, make_control_op [b] (Matrix (seq (S b) k) data) = Ok cop /\
  apply_op N (b + S k + a) cop v (repeat (n0 N) (2 ^ (b + S k + a))) 0 0 =
  Ok (mat_vec N (kron N (ident N (2 ^ b)) (kron N (dsum N (ident N (2 ^ k)) (square_of (2 ^ k) data)) (ident N (2 ^ a)))) v) /\
  make_op_matrix N (b + S k + a) cop =
  Ok (flip N (2 ^ (b + S k + a)) (kron N (ident N (2 ^ b)) (kron N (dsum N (ident N (2 ^ k)) (square_of (2 ^ k) data)) (ident N (2 ^ a))))).
Proof.
  intros P N L b k a data v Hd Hv. destruct (dense_cells N (seq (S b) k) data) as [HT HC]; [rewrite seq_length; exact Hd|]. rewrite seq_length in HT, HC.
  destruct (control_cells N b k _ (Matrix (seq (S b) k) data) HT (seq_length _ _) HC) as [HT' HC']. exists (Control 1 (b :: seq (S b) k) (Matrix (seq (S b) k) data)). split; [reflexivity|].
  assert (W : wf_op (Control 1 (b :: seq (S b) k) (Matrix (seq (S b) k) data))) by (cbn; rewrite !seq_length; split; [reflexivity|exact Hd]).
  split; [apply (apply_padded N L b (S k) a)|apply (table_padded N L b (S k) a)]; try reflexivity; assumption.
Qed.
Print Assumptions C113_control.
(** Any operator on consecutive qubits whose entries are the cells of a table. *)
Theorem C113_any : forall P (N : num P), num_laws N -> forall b k a (op : mop P) T (v : list P),
  wf_op op -> op_indices op = seq b k -> shape T (2 ^ k) (2 ^ k) ->
  (forall r c, length r = k -> length c = k -> cell N T (be r) (be c) = op_mat N op r c) -> length v = 2 ^ (b + k + a) ->
  apply_op N (b + k + a) op v (repeat (n0 N) (2 ^ (b + k + a))) 0 0 =
  Ok (mat_vec N (kron N (ident N (2 ^ b)) (kron N T (ident N (2 ^ a)))) v).
Proof. intros P N L b k a op T v W E HT HC Hv. apply (apply_padded N L b k a); assumption. Qed.
Print Assumptions C113_any.

Example C113_example :
  apply_op ZN 3 (Matrix [1] [1; 2; 3; 4]%Z) [1; 2; 3; 4; 5; 6; 7; 8]%Z (repeat 0%Z 8) 0 0 =
    Ok (mat_vec ZN (kron ZN (ident ZN 2) (kron ZN [[1; 2]; [3; 4]]%Z (ident ZN 2))) [1; 2; 3; 4; 5; 6; 7; 8]%Z) /\
  mat_vec ZN (kron ZN (ident ZN 2) (kron ZN [[1; 2]; [3; 4]]%Z (ident ZN 2))) [1; 2; 3; 4; 5; 6; 7; 8]%Z = [7; 10; 15; 22; 19; 22; 43; 50]%Z /\
  kron ZN [[1; 2]; [3; 4]]%Z [[0; 1]; [1; 0]]%Z = [[0; 1; 0; 2]; [1; 0; 2; 0]; [0; 3; 0; 4]; [3; 0; 4; 0]]%Z /\
  dsum ZN (ident ZN 2) [[0; 1]; [1; 0]]%Z = [[1; 0; 0; 0]; [0; 1; 0; 0]; [0; 0; 0; 1]; [0; 0; 1; 0]]%Z.
Proof. vm_compute. repeat split. Qed.
