(** Products of matrices as lists of rows. *)
From Verif Require Import Base OpsModel OpsSpec KronSpec.

Section Fuse.
Context {P : Type} (N : num P).
Definition mat_mul (k : nat) (A B : list (list P)) : list (list P) :=
  map (fun i => map (fun j => big N (fun m => nmul N (cell N A i m) (cell N B m j)) (seq 0 k)) (seq 0 k)) (seq 0 k).
(** The product of a list of matrices, the first applied first. *)
Definition mat_prod (k : nat) (l : list (list (list P))) : list (list P) := fold_left (fun acc A => mat_mul k A acc) l (ident N k).
End Fuse.
