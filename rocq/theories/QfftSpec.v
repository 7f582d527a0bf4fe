(** The Fourier transform, and what qfft.rs computes in its place. *)
From Coq Require Import Reals List.
From Coquelicot Require Import Complex.
From Verif Require Import Base BitsSpec DenSpec.
Import ListNotations.
Local Open Scope nat_scope.

(** Entry of the Fourier transform on [n] qubits, from value [a] to value [b]. *)
Definition qft_amp (n a b : nat) : C := (RtoC ((/ sqrt 2) ^ n) * expi (2 * PI * INR (a * b) / 2 ^ n))%C.

(** The qubits of [r] take each other's values in reverse order. *)
Definition mirror (r : list nat) (x : bs) : bs := updl x r (rev (map x r)).
(** 1/2 + 1/4 + ... over the [n-1-i] qubits after qubit [i]. *)
Definition qfft_turn (n i : nat) : R := (1 - / 2 ^ (n - 1 - i))%R.
(** The phase picked up by [x] on [r]. *)
Definition qfft_phase (r : list nat) (x : bs) : R :=
  fold_right Rplus 0%R (map (fun i => ((if x (nth i r 0%nat) then 1 else -1) * (qfft_turn (length r) i / 2))%R) (seq 0 (length r))).
(** Parity of the places [i] where [x] and the reverse of [y] are both 1 on [r]. *)
Definition qfft_sign (r : list nat) (x y : bs) : bool :=
  fold_right xorb false (map (fun i => x (nth i r 0) && y (nth (length r - 1 - i) r 0)) (seq 0 (length r))).
Definition qfft_amp (r : list nat) (x y : bs) : C :=
  (RtoC ((if qfft_sign r x y then -1 else 1) * (/ sqrt 2) ^ length r) * expi (qfft_phase r x))%C.

(** Places [i] where [x] and the reverse of [y] agree on [r]. *)
Definition qfft_agree (r : list nat) (x y : bs) : nat :=
  length (filter (fun i => Bool.eqb (x (nth i r 0)) (y (nth (length r - 1 - i) r 0))) (seq 0 (length r))).
(** Under a condition: sin (1/4) for each place of agreement and cos (1/4) for the others in
    place of 1 / sqrt 2. *)
Definition qfft_cond_amp (r : list nat) (x y : bs) : C :=
  (RtoC ((if qfft_sign r x y then -1 else 1) * (sin (/ 4) ^ qfft_agree r x y * cos (/ 4) ^ (length r - qfft_agree r x y))) * expi (qfft_phase r x))%C.
