(** What a call adds to the circuit: qubits and objects. *)
From Verif Require Import Base BuilderModel.
Local Open Scope nat_scope.
Local Open Scope mon_scope.

(** Zeroed temporaries waiting to be handed out again. *)
Definition spare (s : st) : nat := length (zeroed (bld s)).

(** Between [s] and [s'] up to [k] temporaries were held at once and [g] objects were appended:
    spare temporaries are used first, only the missing ones are new qubits, and all of them are
    spare afterwards. *)
Definition uses (k g : nat) (s s' : st) : Prop :=
  bn (bld s') = bn (bld s) + (k - spare s) /\
  spare s' = Nat.max (spare s) k /\
  length (pipeline (bld s')) = length (pipeline (bld s)) + g.

(** Objects of a negation of [t] qubits under [c] conditions: CNOTs for one condition;
    otherwise two 21-object Toffolis for each condition beyond the second, and one Toffoli whose
    H, T and CNOT are repeated for every target. *)
Definition not_objects (c t : nat) : nat := if c =? 1 then t else 42 * (c - 2) + 14 * t + 7.
(** Temporaries of a negation under [c] conditions. *)
Definition not_temps (c : nat) : nat := c - 2.

Definition peak (l : list nat) : nat := fold_right Nat.max 0 l.
Definition total (l : list nat) : nat := fold_right Nat.add 0 l.

(** A program: a sequence of toffolis with their control and target registers. *)
Definition toffolis (l : list (reg * reg)) : M unit := mfold (fun _ p => _ <- toffoli local_aco (fst p) (snd p) ;; ret tt) l tt.
(** Control and target registers are non-empty and made of different qubits of [L]. *)
Definition fits (L : list nat) (p : reg * reg) : Prop := fst p <> [] /\ snd p <> [] /\ NoDup (fst p ++ snd p) /\ incl (fst p ++ snd p) L.

(** Temporaries and objects for one recorded object under [c] conditions. *)
Definition under_temps (c : nat) (e : list nat * cobj) : nat :=
  match co_obj (snd e) with
  | OUnit (UX | UY | UZ | UH) => c - 2
  | OUnit UCNOT => c - 1
  | _ => c
  end.
Definition under_objects (c : nat) (e : list nat * cobj) : nat :=
  match co_obj (snd e) with
  | OUnit UX => not_objects c 1
  | OUnit UZ => not_objects c 1 + 2
  | OUnit UY => not_objects c 1 + 3
  | OUnit UH => not_objects c 1 + 12
  | OUnit UCNOT => not_objects (c + 1) 1
  | _ => 2 * not_objects (c + 1) 1 + 1
  end.

(** Objects that [k] inversions in a row make of one object: the inverse of S is Z S, that of T
    is Z S T, and the others have one object as inverse. *)
Definition inverse_objects (k : nat) (e : list nat * cobj) : nat :=
  match co_obj (snd e) with
  | OUnit US => k + 1
  | OUnit UT => total (seq 1 (k + 1))
  | _ => 1
  end.
(** [k] inversions in a row. *)
Fixpoint invert_times (k : nat) (sc : pipe) : res pipe :=
  match k with
  | 0 => Ok sc
  | S k => bind (invert_subcircuit sc) (invert_times k)
  end.
