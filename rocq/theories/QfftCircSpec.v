(** The circuit of qfft.rs, entry by entry. *)
From Coq Require Import ZArith QArith List.
From Verif Require Import Base OpsModel BuilderModel.
Import ListNotations.
Local Open Scope nat_scope.

(** A rotation by pi / 2^k, a Hadamard gate and a negation with one control. *)
Definition turn (q k : nat) : list nat * cobj := ([q], mkCO 1 (OUnit (URz (PiRational (Qmake 1 (Z.to_pos (2 ^ Z.of_nat k))))))).
Definition had (q : nat) : list nat * cobj := ([q], mkCO 1 (OUnit UH)).
Definition cn (a b : nat) : list nat * cobj := ([a; b], mkCO 2 (OUnit UCNOT)).

(** Qubit [i] is rotated once for every later qubit, whatever that qubit is, then mixed. *)
Definition fourier_qubit (r : list nat) (i : nat) : pipe :=
  map (fun j => turn (nth i r 0) (j - i)) (seq (i + 1) (length r - (i + 1))) ++ [had (nth i r 0)].
(** Three negations exchange two qubits. *)
Definition exchange3 (r : list nat) (i : nat) : pipe :=
  let a := nth i r 0 in let b := nth (length r - 1 - i) r 0 in [cn a b; cn b a; cn a b].
Definition fourier_circuit (r : list nat) : pipe :=
  concat (map (fourier_qubit r) (seq 0 (length r))) ++ concat (map (exchange3 r) (seq 0 (length r / 2))).
