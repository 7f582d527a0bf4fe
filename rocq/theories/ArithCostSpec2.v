(** Temporaries and objects of shifts, copies, the modular product, the modular square and the
    modular power, by width [n] and number of condition qubits [c]. *)
From Verif Require Import Base CostSpec ProgCostSpec ArithCostSpec.
Local Open Scope nat_scope.

(** One place to the right or to the left in a register of [n + 1] qubits: [n] swaps of three
    conditioned negations. *)
Definition shift_objects (n c : nat) : nat := n * (3 * nots c).
Definition copy_objects (n c : nat) : nat := n * nots c.
(** What one bit of the multiplier adds: subtract the modulus, note the sign, add it back if
    needed, add to the product if the bit is set, double; and later halve and undo the reduction. *)
Definition round_objects (n c : nat) : nat :=
  (add_inv_objects n c + nots c + add_objects n (S c) + add_mod_objects n (S c) + shift_objects n c)
  + (shift_objects n c + add_inv_objects n (S c) + nots c + add_objects n c).
(** [k] bits in the multiplier; one flag for each, the carries, and those of the modular sum. *)
Definition times_objects (n k c : nat) : nat := k * round_objects n c.
Definition times_temps (n k c : nat) : nat := k + n + add_mod_temps n (S c).
(** The number is copied, multiplied by its copy, and the copy removed. *)
Definition square_objects (n c : nat) : nat := copy_objects n c + times_objects n n c + copy_objects n c.
Definition square_temps (n c : nat) : nat := n + times_temps n n c.
(** An exponent of one bit: a copy if the bit is 0, a product if it is 1. *)
Definition power1_objects (n c : nat) : nat := copy_objects (S n) (S c) + 2 * flip_objects c + times_objects n (S n) (S c).
Definition power1_temps (n c : nat) : nat := times_temps n (S n) (S c).
