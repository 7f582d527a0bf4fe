(** Positions in a register, independent of how the code filters values. *)
From Verif Require Import Base.

(** The qubits of [r] at positions [is], in the order asked for. *)
Definition at_positions (r is : list nat) : list nat := map (fun i => nth i r 0) is.
(** The qubits of [r] at all other positions, in register order. *)
Definition other_positions (r is : list nat) : list nat :=
  at_positions r (filter (fun i => negb (existsb (Nat.eqb i) is)) (seq 0 (length r))).
