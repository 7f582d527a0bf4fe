(** Programs run after others. *)
From Coq Require Import Reals.
From Verif Require Import Base BuilderModel HistorySpec.
Local Open Scope nat_scope.

(** Calls with the positions of the registers they are given. *)
Definition script := list (call * list nat).
Fixpoint play (p : script) (cl : client) : option client :=
  match p with
  | [] => Some cl
  | (c, ps) :: p' => match do_call cl c ps with Some cl' => play p' cl' | None => None end
  end.
(** The same calls by a client that holds [k] more registers in front. *)
Definition behind (k : nat) (p : script) : script := map (fun '(c, ps) => (c, map (Nat.add k) ps)) p.
(** split_register_absolute is given numbers of qubits; no other call is. *)
Definition no_absolute (c : call) : Prop := match c with CSplitAbs _ => False | _ => True end.

(** What [cl] did to a new builder, done after [cl0]: the qubits follow those of [cl0]. *)
Definition moved (k : nat) (r : list nat) : list nat := map (Nat.add k) r.
Definition after (cl0 cl : client) : client :=
  let b0 := bld (fst cl0) in
  let b := bld (fst cl) in
  let k := bn b0 in
  (mkSt (mkB (pipeline b0 ++ map (fun e => (moved k (fst e), snd e)) (pipeline b)) (k + bn b) (map (moved k) (zeroed b)) (meas b0 + meas b))
        (map (option_map (moved k)) (conds (fst cl))),
   snd cl0 ++ map (moved k) (snd cl)).
(** No condition is in force and no temporary has been given back. *)
Definition at_rest (cl : client) : Prop := conds (fst cl) = [] /\ zeroed (bld (fst cl)) = [].
