(** What a line of [program!] refers to. *)
From Verif Require Import Base BitsSpec OpsSpec BuilderModel DenSpec RunSpec SubSpec ProgramModel.

(** The qubits an argument names, a group names, the registers a line's function is given. *)
Definition arg_qubits (rs : list reg) (a : arg) : list nat :=
  match snd a with Some is => map (fun i => nth i (nth (fst a) rs []) 0) is | None => nth (fst a) rs [] end.
Definition gather (rs : list reg) (g : list arg) : reg := concat (map (arg_qubits rs) g).
Definition line_regs (rs : list reg) (l : line) : list reg := map (gather rs) (l_args l).

(** Arguments name existing qubits, no qubit twice, no empty register. *)
Definition arg_ok (rs : list reg) (a : arg) : Prop :=
  fst a < length rs /\ match snd a with Some is => forall i, In i is -> i < length (nth (fst a) rs []) | None => True end.
Definition line_ok (rs : list reg) (l : line) : Prop :=
  Forall (Forall (arg_ok rs)) (l_args l) /\ Forall (fun r => r <> []) (line_regs rs l) /\ NoDup (concat (line_regs rs l)).

(** The builder in use is the innermost wrapper of [d]. *)
Definition at_depth (d : nat) (s : st) : Prop := length (conds s) = d /\ wrapped d (conds s).
(** [D] is an operation on the qubits [L], whatever the other qubits are. *)
Definition only (L : list nat) (D : state -> state) : Prop :=
  within L D /\ forall q psi, ~ In q L -> D (fun x => psi (flip x q)) = fun x => D psi (flip x q).
(** Called at depth [d] with the registers [rs], [f] gives them back and carries out [D] on
    their qubits where all condition qubits are 1. *)
Definition acts (d : nat) (f : nat -> list reg -> M (list reg)) (rs : list reg) (D : state -> state) : Prop :=
  only (concat rs) D /\
  forall s, at_depth d s -> tidy s -> live s (cqs d (conds s) ++ concat rs) ->
    does s (cqs d (conds s) ++ concat rs) (f d rs) rs (cqs d (conds s) ++ concat rs) (controlled (cqs d (conds s)) D).

(** Qubit i of [cr] has the value of bit i of [m], for all i. *)
Definition matches (cr : list nat) (m : nat) (x : bs) : bool :=
  forallb (fun i => Bool.eqb (x (nth i cr 0)) (Nat.testbit m i)) (seq 0 (length cr)).
(** [D] where the control register has the value asked for. *)
Definition selected (cr : list nat) (m : nat) (D : state -> state) (psi : state) : state :=
  fun x => if matches cr m x then D psi x else psi x.

(** The depth a line's function is called at, the registers it is given out of the registers
    [g] of the line, and the operation of the line if the function carries out [D] on them. *)
Definition call_depth (d : nat) (l : line) : nat := match l_ctl l with None => d | Some _ => S d end.
Definition call_targets (l : line) (g : list reg) : list reg := match l_ctl l with None => g | Some _ => tl g end.
Definition call_op (l : line) (g : list reg) (D : state -> state) : state -> state :=
  match l_ctl l with
  | None => D
  | Some None => controlled (hd [] g) D
  | Some (Some m) => selected (hd [] g) m D
  end.
(** A line whose arguments are right and whose function carries out [D]. *)
Definition line_acts (d : nat) (rs : list reg) (l : line) (D : state -> state) : Prop :=
  line_ok rs l /\ (l_ctl l <> None -> l_args l <> []) /\ acts (call_depth d l) (l_fun l) (call_targets l (line_regs rs l)) D.
Definition line_op (rs : list reg) (l : line) (D : state -> state) : state -> state := call_op l (line_regs rs l) D.
(** The lines one after the other. *)
Fixpoint lines_op (rs : list reg) (ls : list (line * (state -> state))) (psi : state) : state :=
  match ls with [] => psi | (l, D) :: ls' => lines_op rs ls' (line_op rs l D psi) end.

(** Run from [s], every line's call returns the registers it was given. *)
Fixpoint gives_back (d : nat) (rs : list reg) (ls : list line) (s : st) : Prop :=
  match ls with
  | [] => True
  | l :: ls' => match call_line d l (line_regs rs l) s with Ret g s' => g = line_regs rs l /\ gives_back d rs ls' s' | _ => True end
  end.
(** The calls of the lines, each on the qubits named. *)
Fixpoint calls (d : nat) (rs : list reg) (ls : list line) : M unit :=
  match ls with [] => ret tt | l :: ls' => mbind (call_line d l (line_regs rs l)) (fun _ => calls d rs ls') end.

(** Returning or failing, [m] leaves the builder wrapped in as many conditions as before. *)
Definition wraps {A} (m : M A) : Prop :=
  forall s, match m s with Ret _ s' | Fail _ s' => length (conds s') = length (conds s) | Crash _ => True end.
