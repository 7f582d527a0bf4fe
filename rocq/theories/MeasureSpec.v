(** Specification of measurement: the Born rule. *)
From Coq Require Import Reals.
From Coquelicot Require Import Complex.
From Verif Require Import Base BitsSpec OpsModel OpsSpec Instances.

(** Basis state [x] shows outcome [m] on the qubits [qs]: qubit number j of the list holds
    bit j of [m]. *)
Definition shows (qs : list nat) (m : nat) (x : bs) : bool :=
  forallb (fun j => Bool.eqb (x (nth j qs 0)) (Nat.testbit m j)) (seq 0 (length qs)).

(** Sum of a real function over a list. *)
Fixpoint rsum {A} (f : A -> R) (l : list A) : R :=
  match l with [] => 0%R | a :: l' => (f a + rsum f l')%R end.

(** Born probability of [m] when the qubits [qs] of an n-qubit state are measured: the sum of
    |amplitude|^2 over the basis states showing [m].  [v] holds the amplitudes from index [off]
    on; amplitudes not in [v] count as 0. *)
Definition born (n : nat) (qs : list nat) (m : nat) (off : nat) (v : list C) : R :=
  rsum (fun i => if shows qs m (dec n i) then (Cmod (amp_off CN off v i) ^ 2)%R else 0%R) (seq 0 (2 ^ n)).

(** Probability mass of the first i amplitudes. *)
Definition cum (v : list C) (i : nat) : R := rsum (fun a => (Cmod a ^ 2)%R) (firstn i v).

(** What [measure_state] leaves in cell [j] of the output. *)
Definition collapsed (n : nat) (qs : list nat) (m : nat) (p : R) (v : list C) (ioff row : nat) (old : C) : C :=
  if (ioff <=? row) && (row <? ioff + length v) then
    if shows qs m (dec n row) then Cmult (nth (row - ioff) v (RtoC 0)) (RtoC (1 / sqrt p)) else RtoC 0
  else old.
