(** What it means for a builder call to carry out an operation on states. *)
From Coq Require Import Reals.
From Coquelicot Require Import Complex.
From Verif Require Import Base BitsSpec OpsModel OpsSpec ConjSpec Instances BuilderModel DenSpec SimSpec.
Local Open Scope nat_scope.

(** Pooled temporaries, and qubits nobody holds: pooled or not yet allocated. *)
Definition pool (s : st) : list nat := concat (zeroed (bld s)).
Definition idle (s : st) (q : nat) : Prop := bn (bld s) <= q \/ In q (pool s).

(** The pool holds distinct allocated single qubits. *)
Definition tidy (s : st) : Prop :=
  Forall (fun r => length r = 1) (zeroed (bld s)) /\ NoDup (pool s) /\ forall q, In q (pool s) -> q < bn (bld s).
(** [L] are distinct qubits in use. *)
Definition live (s : st) (L : list nat) : Prop := NoDup L /\ forall q, In q L -> ~ idle s q.

(** [D] leaves qubits outside [L] that are 0 at 0. *)
Definition local (L : list nat) (D : state -> state) : Prop :=
  forall q psi, ~ In q L -> clean [q] psi -> clean [q] (D psi).

(** Matrix objects are unitary, from both sides. *)
Definition unitary2_entry (e : list nat * cobj) : Prop :=
  match co_obj (snd e) with
  | OUnit (UMAT d) => unitary2 CN Cconj (length (fst e)) (fun r c => nth (be r * 2 ^ length (fst e) + be c) d (RtoC 0))
  | _ => True
  end.
(** Unitary, no global phase, and the declared size is the number of qubits. *)
Definition proper_entry (e : list nat * cobj) : Prop := plain_entry e /\ unitary2_entry e /\ co_n (snd e) = length (fst e).

(** The call [m], owning the qubits [L], returns [a] and owns [L'] afterwards; it only appends
    well-formed unitary objects to the pipeline, keeps the wrappers and the measurement
    counter, no qubit is lost or shared; and on every state whose unowned qubits are 0, what it
    appended acts as [D]. *)
Definition does {A} (s : st) (L : list nat) (m : M A) (a : A) (L' : list nat) (D : state -> state) : Prop :=
  exists s' p, m s = Ret a s' /\
    conds s' = conds s /\ meas (bld s') = meas (bld s) /\ bn (bld s) <= bn (bld s') /\
    pipeline (bld s') = pipeline (bld s) ++ p /\
    Forall (wf_entry (bn (bld s'))) p /\ Forall proper_entry p /\
    tidy s' /\ live s' L' /\ (forall q, idle s' q \/ In q L' <-> idle s q \/ In q L) /\
    local L D /\
    forall psi, (forall q, idle s q -> q < bn (bld s') -> clean [q] psi) -> den p psi = D psi.

(** Flip every qubit of [ts]. *)
Definition flips (ts : list nat) (x : bs) : bs := fun q => xorb (x q) (existsb (Nat.eqb q) ts).
(** Flip all of [ts] where all of [cs] are 1. *)
Definition ctl_nots (cs ts : list nat) (psi : state) : state := fun x => if forallb x cs then psi (flips ts x) else psi x.
(** One-qubit matrix on each qubit of [r]. *)
Definition each (m : mat1) (r : list nat) (psi : state) : state := fold_left (fun psi q => on1 m q psi) r psi.
(** Multiply by [c] where all of [cs] are 1. *)
Definition ctl_phase (cs : list nat) (c : C) (psi : state) : state := fun x => if forallb x cs then Cmult c (psi x) else psi x.
Fixpoint cpow (z : C) (k : nat) : C := match k with 0 => RtoC 1 | S k => Cmult z (cpow z k) end.
(** Flip [ts] and multiply by [z] where all of [cs] are 1. *)
Definition ctl_nots_phase (cs ts : list nat) (z : C) (psi : state) : state :=
  fun x => if forallb x cs then Cmult z (psi (flips ts x)) else psi x.
(** Exchange [a] and [b] where all of [K] are 1. *)
Definition ctl_swap (K a b : list nat) (psi : state) : state := fun x => if forallb x K then psi (exchange a b x) else psi x.
Definition mSd : mat1 := diag (RtoC 1) (Copp Ci).
Definition mTd : mat1 := diag (RtoC 1) (expi (- (PI / 4))).
(** exp(-i t X / 2), exp(-i t Y / 2) *)
Definition mRx (t : R) : mat1 := fun r c => if eqb r c then RtoC (cos (t / 2)) else Cmult (Copp Ci) (RtoC (sin (t / 2))).
Definition mRy (t : R) : mat1 := fun r c => if eqb r c then RtoC (cos (t / 2)) else if r then RtoC (sin (t / 2)) else RtoC (- sin (t / 2)).

(** The condition qubits of the wrappers below depth [d], outermost wrapper first. *)
Fixpoint cqs (d : nat) (c : list (option reg)) : list nat :=
  match d with
  | 0 => []
  | S k => match nth_error c k with Some (Some r) => r | _ => [] end ++ cqs k c
  end.
(** All wrappers below depth [d] hold their (non-empty) condition register. *)
Definition wrapped (d : nat) (c : list (option reg)) : Prop := forall k, k < d -> exists r, nth_error c k = Some (Some r) /\ r <> [].
