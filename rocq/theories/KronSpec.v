(** Matrices as lists of rows, their Kronecker product and their product with a vector: the
    textbook definitions, without bits, qubits or iterators. *)
From Verif Require Import Base OpsModel OpsSpec.

Section Kron.
Context {P : Type} (N : num P).
(** Row [i], column [j]. *)
Definition cell (A : list (list P)) (i j : nat) : P := nth j (nth i A []) (n0 N).
Definition shape (A : list (list P)) (r c : nat) : Prop := length A = r /\ forall row, In row A -> length row = c.
Definition ident (k : nat) : list (list P) := map (fun i => map (fun j => if i =? j then n1 N else n0 N) (seq 0 k)) (seq 0 k).
Definition kron (A B : list (list P)) : list (list P) :=
  flat_map (fun ra => map (fun rb => flat_map (fun x => map (nmul N x) rb) ra) B) A.
(** The direct sum of two square matrices. *)
Definition dsum (A B : list (list P)) : list (list P) :=
  map (fun r => r ++ repeat (n0 N) (length B)) A ++ map (fun r => repeat (n0 N) (length A) ++ r) B.
Definition mat_vec (A : list (list P)) (v : list P) : list P := map (fun row => big N (fun '(x, y) => nmul N x y) (combine row v)) A.
(** A list of k * k numbers as k rows. *)
Definition square_of (k : nat) (data : list P) : list (list P) := map (fun i => firstn k (skipn (i * k) data)) (seq 0 k).
(** The rows become the columns. *)
Definition flip (k : nat) (A : list (list P)) : list (list P) := map (fun i => map (fun j => cell A j i) (seq 0 k)) (seq 0 k).
End Kron.
