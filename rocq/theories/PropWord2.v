(** Making operators on 64-bit words, and the assertion on swaps: C104. *)
From Coq Require Import Reals NArith Lra FunctionalExtensionality.
From Coquelicot Require Import Complex.
From Verif Require Import Base BitsModel BitsSpec BitsProofs OpsModel OpsSpec OpsProofs StateOpsModel Instances WordModel WordSpec WordProofs WordProofs2.
Local Open Scope nat_scope.

(** *** C104: operators are made as without bounds on the indices. *)
Theorem C104_constructors : forall m P (qs c : list nat) (d : list P) (op : mop P),
  (2 * length qs <= 63 -> wmake_matrix_op m qs d = make_matrix_op qs d) /\
  (wf_op op -> length c + length (op_indices op) <= 63 -> wmake_control_op m c op = make_control_op c op).
Proof. intros m P qs c d op. split; [apply wmake_matrix_op_ok|apply wmake_control_op_ok]. Qed.
Print Assumptions C104_constructors.
(** The two controls of a nested control stand in front, the outer one first. *)
Theorem C104_nested_control : forall m P c k oo (op : mop P), c <> [] -> length c + k < 64 ->
  wmake_control_op m c (Control k oo op) = Ok (Control (length c + k) (c ++ oo) op).
Proof.
  intros m P c k oo op Hc H. unfold wmake_control_op. destruct c as [|q c]; [congruence|]. replace (length (q :: c) =? 0) with false by reflexivity.
  rewrite (wadd_ok m 6) by (change (2 ^ 6) with 64; lia). reflexivity.
Qed.
Print Assumptions C104_nested_control.
(** A swap written down with the wrong number of qubits: num_indices panics in a debug build and believes the
    number of pairs in a release build. *)
Theorem C104_swap_assertion : forall P a b, a <= 31 -> length b <> a * 2 ->
  wnum_indices Debug (@Swap P a b) = Panic PAssert /\ wnum_indices Release (@Swap P a b) = Ok (a * 2).
Proof.
  intros P a b Ha H. unfold wnum_indices. rewrite (wmul_ok Debug 6), (wmul_ok Release 6) by (change (2 ^ 6) with 64; lia). cbn [bind]. destruct (Nat.eqb_spec (length b) (a * 2)) as [E|_]; [congruence|]. split; reflexivity.
Qed.
Print Assumptions C104_swap_assertion.
Example C104_constructors_example : wmake_control_op Release [5] (Control 1 [3; 4] (@Swap nat 1 [4; 0])) = Ok (Control 2 [5; 3; 4] (Swap 1 [4; 0])) /\
  wnum_indices Debug (@Swap nat 1 [0; 1; 2]) = Panic PAssert.
Proof. split; reflexivity. Qed.
