(** Other numbers for the same qubits. *)
From Coq Require Import Reals.
From Verif Require Import Base BitsSpec BuilderModel HistorySpec ShiftSpec.
Local Open Scope nat_scope.

(** [f] gives the qubits below [n] other numbers below [n]. *)
Definition renumbers (n : nat) (f : nat -> nat) : Prop := (forall q, q < n -> f q < n) /\ forall p q, f p = f q -> p = q.
(** A builder and a client with other numbers for their qubits. *)
Definition renamed_builder (f : nat -> nat) (b : builder) : builder :=
  mkB (map (fun e => (map f (fst e), snd e)) (pipeline b)) (bn b) (map (map f) (zeroed b)) (meas b).
Definition renamed_state (f : nat -> nat) (s : st) : st := mkSt (renamed_builder f (bld s)) (map (option_map (map f)) (conds s)).
Definition renamed (f : nat -> nat) (cl : client) : client := (renamed_state f (fst cl), map (map f) (snd cl)).
(** Initial values for the same registers. *)
Definition renamed_init (f : nat -> nat) (it : list (reg * nat)) : list (reg * nat) := map (fun '(r, v) => (map f r, v)) it.

(** Registers of sizes [ks] allocated in the order [order] (the i-th of [ks] is known as number i). *)
Definition allocations (ks : list nat) (order : list nat) : script := map (fun i => (CRegister (nth i ks 0), [])) order.
(** The registers by number: [order] is the order in which they were allocated. *)
Definition by_number (order : list nat) (rs : list reg) (i : nat) : reg :=
  nth 0 (map snd (filter (fun p => fst p =? i) (combine order rs))) [].
Definition allocated_in (ks order : list nat) : option client :=
  option_map (fun cl => (fst cl, map (by_number order (snd cl)) (seq 0 (length ks)))) (play (allocations ks order) start).
