(** Calls that are not given a register. *)
From Coq Require Import Reals.
From Verif Require Import Base BuilderModel HistorySpec.
Local Open Scope nat_scope.

(** Calls from one client state to another, none of which is given a qubit of [r]. *)
Inductive apart (r : list nat) : client -> client -> Prop :=
| apart_refl : forall cl, apart r cl cl
| apart_step : forall cl1 cl2 cl3 c ps, apart r cl1 cl2 -> distinct_positions c -> legal (snd cl2) ps ->
    (forall q, In q r -> ~ In q (concat (pick (snd cl2) ps))) -> do_call cl2 c ps = Some cl3 -> apart r cl1 cl3.

(** All outcomes of measurements of these qubits. *)
Fixpoint outcomes (qss : list (list nat)) : list (list nat) :=
  match qss with
  | [] => [[]]
  | qs :: qss' => concat (map (fun m => map (cons m) (outcomes qss')) (seq 0 (2 ^ length qs)))
  end.

(** Entries that share no qubit, next to each other, exchanged any number of times; two measurements stay
    in order. *)
Definition is_measurement (e : list nat * cobj) : bool := match co_obj (snd e) with OMeas _ => true | _ => false end.
Inductive reordered : pipe -> pipe -> Prop :=
| reordered_none : forall p, reordered p p
| reordered_swap : forall p1 e1 e2 p2, (forall q, In q (fst e1) -> ~ In q (fst e2)) -> is_measurement e1 && is_measurement e2 = false ->
    reordered (p1 ++ e1 :: e2 :: p2) (p1 ++ e2 :: e1 :: p2)
| reordered_more : forall p p' p'', reordered p p' -> reordered p' p'' -> reordered p p''.
