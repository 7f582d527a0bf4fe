(** Textbook measurement on functions from assignments to amplitudes, and circuits with measurements
    in the middle. *)
From Coq Require Import Reals.
From Coquelicot Require Import Hierarchy RInt Complex.
From Verif Require Import Base BitsSpec BuilderModel DenSpec MeasureSpec.
Local Open Scope R_scope.

(** Born probability of showing [m] on [qs]. *)
Definition prob_of (n : nat) (qs : list nat) (m : nat) (psi : state) : R :=
  rsum (fun i => if shows qs m (dec n i) then Cmod (psi (dec n i)) ^ 2 else 0) (seq 0 (2 ^ n)).
(** Weight of the first [j] basis states. *)
Definition below (n : nat) (j : nat) (psi : state) : R := rsum (fun i => Cmod (psi (dec n i)) ^ 2) (seq 0 j).
(** Squared norm. *)
Definition weight (n : nat) (psi : state) : R := below n (2 ^ n) psi.
(** The part of the state that shows [m] on [qs]. *)
Definition proj (qs : list nat) (m : nat) (psi : state) : state := fun x => if shows qs m x then psi x else RtoC 0.
(** The normalised state after seeing [m] on [qs]. *)
Definition post (n : nat) (qs : list nat) (m : nat) (psi : state) : state :=
  fun x => if shows qs m x then (RtoC (/ sqrt (prob_of n qs m psi)) * psi x)%C else RtoC 0.

(** The (unnormalised) state after [p] when its measurements show the outcomes [ms]. *)
Fixpoint branch (p : pipe) (ms : list nat) (psi : state) : state :=
  match p with
  | [] => psi
  | (qs, co) :: p' =>
      match co_obj co, ms with
      | OMeas _, m :: ms' => branch p' ms' (proj qs m psi)
      | OMeas _, [] => branch p' [] psi
      | OUnit u, _ => branch p' ms (uden u qs psi)
      end
  end.
(** The qubits measured, measurement by measurement. *)
Fixpoint measured (p : pipe) : list (list nat) :=
  match p with
  | [] => []
  | (qs, co) :: p' => match co_obj co with OMeas _ => qs :: measured p' | OUnit _ => measured p' end
  end.

(** Integral of [F] over [k] independent draws, each uniform on [0,1]: one after the other.  [F] sees
    the draws as a sequence. *)
Definition then_draws (r : R) (d : nat -> R) : nat -> R := fun j => match j with O => r | S j' => d j' end.
Fixpoint over_draws (k : nat) (F : (nat -> R) -> R) (a : R) : Prop :=
  match k with
  | O => forall d, F d = a
  | S k' => exists g : R -> R, (forall r, 0 < r < 1 -> over_draws k' (fun d => F (then_draws r d)) (g r)) /\ is_RInt g 0 1 a
  end.
