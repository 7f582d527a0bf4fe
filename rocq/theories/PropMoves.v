(** C64 for S and T at every depth. *)
From Coq Require Import Reals Permutation.
From Coquelicot Require Import Complex.
From Verif Require Import Base BitsSpec OpsModel BuilderModel RegProofs DenSpec SimSpec SimProofs RunSpec LocalProofs RunProofs GateProofs CondProofs.
From Verif Require Import OutcomeProofs2.
From Verif Require Import MoveSpec MoveProofs.
Local Open Scope nat_scope.

(** One phase for the whole register, taken when all condition qubits and all its qubits are 1; all but its last
    qubit join the condition register of the outermost condition (the wrapper around the LocalBuilder), whichever
    wrapper the call was made on. *)
Theorem C64_conditioned_s_t_every_depth : forall u d s r0 rest ts t, (u = US \/ u = UT) -> 0 < d -> conds s = Some r0 :: rest -> wrapped d (conds s) -> tidy s ->
  let K := cqs d (conds s) in live s (K ++ ts ++ [t]) ->
  moves s (Some (r0 ++ ts) :: rest) (K ++ ts ++ [t]) (BuilderModel.gate (aco d) u (ts ++ [t])) [t] (K ++ ts ++ [t])
    (ctl_phase (K ++ ts ++ [t]) (match u with US => Ci | _ => expi (PI / 4) end)).
Proof.
  intros u d s r0 rest ts t Hu Hd Ec W T K Lv. apply moves_unwrap.
  assert (Eg : Some (r0 ++ ts) :: rest = grown d ts (conds s)) by (rewrite Ec; destruct d; [lia|reflexivity]). rewrite Eg.
  apply (aco_moves (mkCO 1 (OUnit u)) (ts ++ [t]) ts [t] (fun K => ctl_phase (K ++ ts ++ [t]) (match u with US => Ci | _ => expi (PI / 4) end))); [|reflexivity|exact Hd|exact W|exact T|exact Lv].
  intros s0 cs Hc T0 L0. destruct Hu as [->| ->]; cbn [local_try co_obj].
  - apply (cond_phase_does (g_s local_aco) Ci cs ts t s0 T0 L0 Hc).
    intros s1 t1 L T1 L1 I. apply (gate_does US); auto; [intros q [<-|[]]; exact I|repeat constructor; cbn; tauto|discriminate].
  - apply (cond_phase_does (g_t local_aco) (expi (PI / 4)) cs ts t s0 T0 L0 Hc).
    intros s1 t1 L T1 L1 I. apply (gate_does UT); auto; [intros q [<-|[]]; exact I|repeat constructor; cbn; tauto|discriminate].
Qed.
Print Assumptions C64_conditioned_s_t_every_depth.
Definition c64_st : st := mkSt (mkB [] 5 [] 0) [Some [0]; Some [1]].
(** Two wrappers: qubits 2 and 3 end up in the register of the first. *)
Example C64_every_depth_example : wrapped 2 (conds c64_st) /\ tidy c64_st /\ live c64_st (cqs 2 (conds c64_st) ++ [2; 3] ++ [4]) /\
  exists s', BuilderModel.gate (aco 2) UT [2; 3; 4] c64_st = Ret [4] s' /\ conds s' = [Some [0; 2; 3]; Some [1]].
Proof.
  assert (W : wrapped 2 (conds c64_st)) by (intros [|[|k]] Hk; [exists [0]|exists [1]|lia]; (split; [reflexivity|discriminate])).
  assert (T : tidy c64_st) by (split; [constructor|]; split; [constructor|]; intros q []).
  assert (L : live c64_st (cqs 2 (conds c64_st) ++ [2; 3] ++ [4])).
  { split; [cbn; repeat constructor; cbn; lia|]. intros q Hq [X|[]]. cbn in Hq, X. lia. }
  split; [exact W|]. split; [exact T|]. split; [exact L|].
  destruct (C64_conditioned_s_t_every_depth UT 2 c64_st [0] [Some [1]] [2; 3] 4 (or_intror eq_refl) ltac:(lia) eq_refl W T L) as (s' & p & H1 & H2 & _). exists s'. auto.
Qed.
