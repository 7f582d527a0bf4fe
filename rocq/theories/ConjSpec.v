(** Conjugation, adjoints, unitarity. *)
From Verif Require Import Base BitsSpec OpsModel OpsSpec.

Record conj_laws {P} (N : num P) (cj : P -> P) : Prop := mkConj {
  c_add : forall a b, cj (nadd N a b) = nadd N (cj a) (cj b);
  c_mul : forall a b, cj (nmul N a b) = nmul N (cj a) (cj b);
  c_0 : cj (n0 N) = n0 N;
  c_1 : cj (n1 N) = n1 N;
  c_invol : forall a, cj (cj a) = a;
  c_mulc : forall a b, nmul N a b = nmul N b a }.
Arguments c_add {P N cj}. Arguments c_mul {P N cj}. Arguments c_0 {P N cj}. Arguments c_1 {P N cj}.
Arguments c_invol {P N cj}. Arguments c_mulc {P N cj}.

Section Spec.
Context {P : Type} (N : num P) (cj : P -> P).

Definition mat := list bool -> list bool -> P.
Definition adj (M : mat) : mat := fun r c => cj (M c r).
Definition mmul (k : nat) (A B : mat) : mat := fun r c => big N (fun m => nmul N (A r m) (B m c)) (bools k).
(** M† M = I on k qubits *)
Definition unitary_mat (k : nat) (M : mat) : Prop :=
  forall r c, length r = k -> length c = k -> mmul k (adj M) M r c = delta N r c.
(** both sides *)
Definition unitary2 (k : nat) (M : mat) : Prop := unitary_mat k M /\ unitary_mat k (adj M).
(** Sum over the basis states of n qubits; squared norm; inner product. *)
Definition bsum (n : nat) (f : bs -> P) : P := big N (fun i => f (dec n i)) (seq 0 (2 ^ n)).
Definition ip (n : nat) (phi psi : bs -> P) : P := bsum n (fun x => nmul N (cj (phi x)) (psi x)).
End Spec.

(** Amplitude of basis state [j] in the operation applied to basis state [i]: the entry of the
    operation for the bits of its qubits if the other qubits agree, else 0. *)
Definition full_entry {P} (N : num P) (n : nat) (op : mop P) (i j : nat) : P :=
  if forallb (fun q => existsb (Nat.eqb q) (op_indices op) || eqb (dec n i q) (dec n j q)) (seq 0 n)
  then op_mat N op (map (dec n j) (op_indices op)) (map (dec n i) (op_indices op)) else n0 N.
