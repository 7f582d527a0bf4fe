(** What a whole run of the simulator does, for every kind of entry. *)
From Coq Require Import Reals.
From Coquelicot Require Import Complex.
From Verif Require Import Base BitsSpec BuilderModel SimModel DenSpec MeasureSpec ProjSpec.
Local Open Scope R_scope.

(** A draw [d] picks basis state [j]: the first at which the weight so far reaches [d], and basis
    state 0 when it never does. *)
Definition picks (n : nat) (d : R) (psi : state) (j : nat) : Prop :=
  ((j < 2 ^ n)%nat /\ d <= below n (S j) psi /\ forall i, (i < j)%nat -> below n (S i) psi < d) \/
  (j = 0%nat /\ forall i, (i < 2 ^ n)%nat -> below n (S i) psi < d).

(** The state, the state before the last entry, and the results so far. *)
Record sim := mkSim { cur : state; prev : state; seen : list mresult }.

(** One entry.  A global phase, a stochastic measurement and a measurement of an outcome of
    probability 0 bring back the state before the last entry. *)
Inductive step (n : nat) (draws : nat -> R) (s : sim) : list nat * cobj -> sim -> Prop :=
| step_gate qs k u : (forall t, u <> UPhase t) ->
    step n draws s (qs, mkCO k (OUnit u)) (mkSim (uden u qs (cur s)) (cur s) (seen s))
| step_phase qs k t :
    step n draws s (qs, mkCO k (OUnit (UPhase t))) (mkSim (prev s) (cur s) (seen s))
| step_stoch qs k :
    step n draws s (qs, mkCO k (OMeas MStoch))
      (mkSim (prev s) (cur s) (seen s ++ [RStochastic (map (fun m => prob_of n qs m (cur s)) (seq 0 (2 ^ length qs)))]))
| step_meas qs k j m : picks n (draws (length (seen s))) (cur s) j -> (m < 2 ^ length qs)%nat -> shows qs m (dec n j) = true ->
    prob_of n qs m (cur s) <> 0 ->
    step n draws s (qs, mkCO k (OMeas MSingle))
      (mkSim (post n qs m (cur s)) (cur s) (seen s ++ [RSingle m (prob_of n qs m (cur s))]))
| step_none qs k j m : picks n (draws (length (seen s))) (cur s) j -> (m < 2 ^ length qs)%nat -> shows qs m (dec n j) = true ->
    prob_of n qs m (cur s) = 0 ->
    step n draws s (qs, mkCO k (OMeas MSingle)) (mkSim (prev s) (cur s) (seen s ++ [RSingle m 0])).
Inductive steps (n : nat) (draws : nat -> R) : sim -> pipe -> sim -> Prop :=
| steps_nil s : steps n draws s [] s
| steps_cons s e s1 p s' : step n draws s e s1 -> steps n draws s1 p s' -> steps n draws s (e :: p) s'.

(** 1 if a run gives exactly the outcomes [ms], 0 otherwise. *)
Definition value (r : mresult) : nat := match r with RSingle v _ => v | RStochastic _ => 0 end.
Definition gives (r : res (list C * list mresult)) (ms : list nat) : R :=
  match r with Ok (_, rs) => if list_eq_dec Nat.eq_dec (map value rs) ms then 1 else 0 | _ => 0 end.
(** Gates and measurements only: no global phases, no stochastic measurements. *)
Definition gate_or_meas (e : list nat * cobj) : Prop :=
  match co_obj (snd e) with OUnit (UPhase _) => False | OMeas MStoch => False | _ => True end.

(** Outcomes with their probabilities, as results; the probability of all of them together. *)
Definition results (out : list (nat * R)) : list mresult := map (fun o => RSingle (fst o) (snd o)) out.
Definition chance (out : list (nat * R)) : R := fold_right (fun o p => snd o * p) 1 out.
Definition scaled (c : C) (psi : state) : state := fun x => Cmult c (psi x).
