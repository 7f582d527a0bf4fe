(** Textbook meaning of circuits, on functions from classical assignments to amplitudes.
    No lists, indices or buffers here. *)
From Coq Require Import Reals QArith Qreals.
From Coquelicot Require Import Complex.
From Verif Require Import Base BitsSpec OpsModel OpsSpec Instances BuilderModel.
Local Open Scope nat_scope.

Definition state := bs -> C.

(** e^{it} *)
Definition expi (t : R) : C := (cos t, sin t).

(** One-qubit matrices: row, column. *)
Definition mat1 := bool -> bool -> C.
Definition diag (a b : C) : mat1 := fun r c => if eqb r c then (if r then b else a) else RtoC 0.
Definition mX : mat1 := fun r c => if eqb r c then RtoC 0 else RtoC 1.
Definition mY : mat1 := fun r c => match r, c with false, true => Copp Ci | true, false => Ci | _, _ => RtoC 0 end.
Definition mZ : mat1 := diag (RtoC 1) (RtoC (-1)).
Definition mH : mat1 := fun r c => if r && c then RtoC (- / sqrt 2) else RtoC (/ sqrt 2).
Definition mS : mat1 := diag (RtoC 1) Ci.
Definition mT : mat1 := diag (RtoC 1) (expi (PI / 4)).
Definition mRz (t : R) : mat1 := diag (expi (- (t / 2))) (expi (t / 2)).

(** Apply a one-qubit matrix to qubit [q]. *)
Definition on1 (m : mat1) (q : nat) (psi : state) : state := fun x =>
  (m (x q) false * psi (upd x q false) + m (x q) true * psi (upd x q true))%C.

Definition flip (x : bs) (q : nat) : bs := upd x q (negb (x q)).

(** Flip [t] where all of [cs] are 1. *)
Definition cflip (cs : list nat) (t : nat) (x : bs) : bs := if forallb x cs then flip x t else x.
Definition ctl_not (cs : list nat) (t : nat) (psi : state) : state := fun x => psi (cflip cs t x).

(** Exchange the values of [a] and [b], position by position. *)
Definition exchange (a b : list nat) (x : bs) : bs := updl x (a ++ b) (map x b ++ map x a).

(** Apply [D] where all of [cs] are 1. *)
Definition controlled (cs : list nat) (D : state -> state) (psi : state) : state :=
  fun x => if forallb x cs then D psi x else psi x.

(** The angle used for an Rz object in the simulation. *)
Definition angle (t : rot) : R := match t with Floating p => p | PiRational q => Q2R q end.

(** Meaning of a unitary object on an ordered list of qubits; objects on a list of the wrong
    size have no meaning (see [wf_entry]) and are taken as the identity. *)
Definition uden (u : unitary) (qs : list nat) (psi : state) : state :=
  match u, qs with
  | UX, [q] => on1 mX q psi
  | UY, [q] => on1 mY q psi
  | UZ, [q] => on1 mZ q psi
  | UH, [q] => on1 mH q psi
  | US, [q] => on1 mS q psi
  | UT, [q] => on1 mT q psi
  | URz t, [q] => on1 (mRz (angle t)) q psi
  | UCNOT, [c; t] => ctl_not [c] t psi
  | USWAP, _ => fun x => psi (exchange (firstn (length qs / 2) qs) (skipn (length qs / 2) qs) x)
  | UMAT d, _ => act CN qs (fun r c => nth (be r * 2 ^ length qs + be c) d (RtoC 0)) psi
  | UPhase _, _ => psi
  | _, _ => psi
  end.

Definition oden (co : cobj) (qs : list nat) (psi : state) : state :=
  match co_obj co with OUnit u => uden u qs psi | OMeas _ => psi end.

(** Meaning of a pipeline: entries from left to right. *)
Definition den (p : pipe) (psi : state) : state := fold_left (fun psi e => oden (snd e) (fst e) psi) p psi.

(** Objects with a meaning: the right number of distinct qubits. *)
Definition wf_unitary (u : unitary) (qs : list nat) : Prop :=
  match u with
  | UX | UY | UZ | UH | US | UT | URz _ => length qs = 1
  | UCNOT => length qs = 2
  | USWAP => qs <> [] /\ exists k, length qs = k + k
  | UMAT d => qs <> [] /\ length d = 2 ^ (2 * length qs)
  | UPhase _ => True
  end.
Definition wf_entry (n : nat) (e : list nat * cobj) : Prop :=
  NoDup (fst e) /\ (forall q, In q (fst e) -> q < n) /\
  match co_obj (snd e) with OUnit u => wf_unitary u (fst e) | OMeas _ => True end.
(** Unitary, and not a global phase. *)
Definition plain_entry (e : list nat * cobj) : Prop :=
  match co_obj (snd e) with OUnit (UPhase _) => False | OUnit _ => True | OMeas _ => False end.

(** Amplitude 1 at the assignments agreeing with [x] on qubits below [n], 0 elsewhere. *)
Definition ket (n : nat) (x : bs) : state := fun y => if enc n x =? enc n y then RtoC 1 else RtoC 0.

(** Qubits [ts] are all 0 in [psi]. *)
Definition clean (ts : list nat) (psi : state) : Prop :=
  forall x t, In t ts -> x t = true -> psi x = RtoC 0.
