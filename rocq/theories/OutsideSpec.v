(** Qubits a state does not have, in a release build. *)
From Verif Require Import Base BitsSpec OpsModel OpsSpec.
Local Open Scope nat_scope.

(** A state of [n] qubits in an index of 64 bits: its qubits are the last [n] of the word, and counting on past
    the last one starts again at the first bit of the word. *)
Definition word_qubit (n q : nat) : nat := (q + (64 - n mod 64)) mod 64.
(** The same operator on other qubits. *)
Definition on_qubits {P} (f : nat -> nat) (op : mop P) : mop P :=
  match op with
  | Matrix ind data => Matrix (map f ind) data
  | Sparse ind rows => Sparse (map f ind) rows
  | Swap k ind => Swap k (map f ind)
  | Control k ind op' => Control k (map f ind) op'
  end.
(** A vector as a state of 64 qubits: no amplitude beyond its end. *)
Definition wide {P} (N : num P) (v : list P) : bs -> P := fun x => nth (enc 64 x) v (n0 N).
