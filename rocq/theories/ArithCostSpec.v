(** Temporaries and objects of the arithmetic circuits, by width [n] and number of condition
    qubits [c]. *)
From Verif Require Import Base CostSpec ProgCostSpec.
Local Open Scope nat_scope.

(** A negation of one qubit under [c] conditions more than the first. *)
Definition nots (c : nat) : nat := not_objects (S c) 1.
Definition sum_objects (c : nat) : nat := 2 * nots c.
Definition carry_objects (c : nat) : nat := 2 * nots (S c) + 2 * nots c.
(** The recorded inverse of the carry: 26 Z, 34 S or T, 4 H and 14 CNOT; its inverse in turn has
    60 Z and 48 S or T. *)
Definition uncarry_objects (c : nat) : nat :=
  if c =? 0 then 78 else 26 * (not_objects c 1 + 2) + 34 * (2 * nots c + 1) + 4 * (not_objects c 1 + 12) + 14 * nots c.
Definition recarry_objects (c : nat) : nat :=
  if c =? 0 then 126 else 60 * (not_objects c 1 + 2) + 48 * (2 * nots c + 1) + 4 * (not_objects c 1 + 12) + 14 * nots c.
Definition add_objects (n c : nat) : nat := n * (carry_objects c + sum_objects c) + (n - 1) * uncarry_objects c.
Definition add_inv_objects (n c : nat) : nat := n * (sum_objects c + uncarry_objects c) + (n - 1) * recarry_objects c.
(** Two additions, two subtractions, one addition under one condition more, two conditioned
    negations of the flag, and the condition qubit of the second negated twice. *)
Definition add_mod_objects (n c : nat) : nat :=
  2 * add_objects n c + 2 * add_inv_objects n c + add_objects n (S c) + 2 * nots c + 2 * flip_objects c.
(** The flag and the carries, and as many temporaries as the conditioned addition has conditions. *)
Definition add_mod_temps (n c : nat) : nat := 1 + n + S c.
