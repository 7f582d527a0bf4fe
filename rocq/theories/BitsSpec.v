(** Specification vocabulary: classical basis states as functions from qubits to booleans,
    and their big-endian encoding as indices.  Independent of the code's bit fiddling. *)
From Coq Require Import FunctionalExtensionality.
From Verif Require Import Base.

(** A classical assignment of a bit to every qubit. *)
Definition bs := nat -> bool.

(** Value of a bit list, most significant bit first. *)
Definition b2n (b : bool) : nat := if b then 1 else 0.
Definition be (l : list bool) : nat := fold_left (fun acc b => 2 * acc + b2n b) l 0.

(** Value of a bit list, least significant bit first. *)
Fixpoint le (l : list bool) : nat :=
  match l with [] => 0 | b :: l' => b2n b + 2 * le l' end.

(** The index of basis state [x] in an [n]-qubit state vector: qubit 0 is the most
    significant bit. *)
Definition enc (n : nat) (x : bs) : nat := be (map x (seq 0 n)).

(** The basis state of index [i]; qubits from [n] on read as false. *)
Definition dec (n i : nat) : bs := fun q => (q <? n) && Nat.testbit i (n - 1 - q).

(** Update one qubit, a list of qubits. *)
Definition upd (x : bs) (q : nat) (b : bool) : bs := fun p => if p =? q then b else x p.
Fixpoint updl (x : bs) (qs : list nat) (c : list bool) : bs :=
  match qs, c with
  | q :: qs', b :: c' => updl (upd x q b) qs' c'
  | _, _ => x
  end.

(** All bit lists of length [k], in increasing big-endian order. *)
Fixpoint bools (k : nat) : list (list bool) :=
  match k with
  | 0 => [[]]
  | S k' => map (cons false) (bools k') ++ map (cons true) (bools k')
  end.

(** Bits of a number, most significant first. *)
Definition bits_be (k i : nat) : list bool := map (fun j => Nat.testbit i (k - 1 - j)) (seq 0 k).
