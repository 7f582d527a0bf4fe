(** Temporaries and objects of the Fourier transform of [n] qubits under [c] conditions. *)
From Verif Require Import Base CostSpec ArithCostSpec.
Local Open Scope nat_scope.

Definition had_objects (c : nat) : nat := if c =? 0 then 1 else not_objects c 1 + 12.
(** The exchanges need one temporary more than the Hadamard gates. *)
Definition qfft_temps (n c : nat) : nat := if n =? 1 then c - 2 else c - 1.
(** One rotation for every pair of qubits, whatever the conditions are; a Hadamard gate for every
    qubit; three negations for every exchange. *)
Definition qfft_objects (n c : nat) : nat := (n - 1) * n / 2 + n * had_objects c + n / 2 * (3 * nots c).
