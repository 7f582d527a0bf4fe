(** What program lines add to the circuit. *)
From Verif Require Import Base BuilderModel RunSpec ProgramModel ProgramSpec CostSpec.
Local Open Scope nat_scope.

(** Called at depth [d] with the registers [rs] under [c] condition qubits, whatever else is live,
    [f] gives the registers back, keeps what is live, holds up to [k c] temporaries at once and
    appends [g c] objects. *)
Definition prices (d : nat) (f : nat -> list reg -> M (list reg)) (rs : list reg) (k g : nat -> nat) : Prop :=
  forall s L, at_depth d s -> tidy s -> live s L -> let K := cqs d (conds s) in NoDup (K ++ concat rs) -> incl (K ++ concat rs) L ->
    exists s', f d rs s = Ret rs s' /\ conds s' = conds s /\ tidy s' /\ live s' L /\ uses (k (length K)) (g (length K)) s s'.

(** Objects of one negation under [c] conditions, none included. *)
Definition flip_objects (c : nat) : nat := if c =? 0 then 1 else not_objects c 1.
(** Bits of the mask [m] that are 0, for a register of [n] qubits. *)
Definition cleared (n m : nat) : nat := length (filter (fun i => negb (Nat.testbit m i)) (seq 0 n)).

(** A line whose arguments are right, with temporaries and objects of its function. *)
Record priced := mkPriced { p_line : line; p_temps : nat -> nat; p_objects : nat -> nat }.
Definition line_prices (d : nat) (rs : list reg) (p : priced) : Prop :=
  let l := p_line p in
  line_ok rs l /\ (l_ctl l <> None -> l_args l <> []) /\
  prices (call_depth d l) (l_fun l) (call_targets l (line_regs rs l)) (p_temps p) (p_objects p).

(** A control register adds its qubits to the conditions; a mask negates the qubits at its cleared
    bits before and after, under the outer conditions. *)
Definition line_temps (rs : list reg) (p : priced) (c : nat) : nat :=
  let n := length (hd [] (line_regs rs (p_line p))) in
  match l_ctl (p_line p) with
  | None => p_temps p c
  | Some None => p_temps p (c + n)
  | Some (Some m) => Nat.max (if cleared n m =? 0 then 0 else not_temps c) (p_temps p (c + n))
  end.
Definition line_objects (rs : list reg) (p : priced) (c : nat) : nat :=
  let n := length (hd [] (line_regs rs (p_line p))) in
  match l_ctl (p_line p) with
  | None => p_objects p c
  | Some None => p_objects p (c + n)
  | Some (Some m) => p_objects p (c + n) + 2 * (cleared n m * flip_objects c)
  end.
Definition program_temps (rs : list reg) (ps : list priced) (c : nat) : nat := peak (map (fun p => line_temps rs p c) ps).
Definition program_objects (rs : list reg) (ps : list priced) (c : nat) : nat := total (map (fun p => line_objects rs p c) ps).
