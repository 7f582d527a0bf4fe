(** Simulation after any history of builder calls. *)
From Coq Require Import Reals QArith.
From Coquelicot Require Import Complex.
From Verif Require Import Base BitsProofs OpsSpec Instances BuilderModel HistorySpec SimModel DenSpec SimSpec ProjSpec WholeSpec WholeProofs ShapeSpec ShapeProofs4 HistoryProofs HistoryProofs2.
Local Open Scope nat_scope.

(** *** C85 *)
Theorem C85_never_panics : forall cl it draws, history cl -> (forall r v, In (r, v) it -> in_range (bn (bld (fst cl))) r) -> NoDup (concat (map fst it)) ->
  exists x v ms last, loads it x /\ calculate_state_with_init (bld (fst cl)) it draws = Ok (v, ms) /\ length v = 2 ^ bn (bld (fst cl)) /\
    steps (bn (bld (fst cl))) draws (mkSim (ket (bn (bld (fst cl))) x) (fun _ => RtoC 0) []) (pipeline (bld (fst cl))) (mkSim (st_of CN (bn (bld (fst cl))) v) last ms).
Proof. exact never_panics. Qed.
Print Assumptions C85_never_panics.
(** Without [careful] calls: it panics exactly when an object sits on a wrong number of qubits. *)
Theorem C85_exactly : forall cl it draws, reach distinct_positions start cl -> (forall r v, In (r, v) it -> in_range (bn (bld (fst cl))) r) -> NoDup (concat (map fst it)) ->
  ((exists v ms, calculate_state_with_init (bld (fst cl)) it draws = Ok (v, ms)) /\ Forall suits (pipeline (bld (fst cl)))) \/
  ((exists p, calculate_state_with_init (bld (fst cl)) it draws = Panic p) /\ ~ Forall suits (pipeline (bld (fst cl)))).
Proof. exact run_exactly. Qed.
Print Assumptions C85_exactly.

Fixpoint all_careful (l : list (call * list nat)) (cl : client) : Prop :=
  match l with
  | [] => True
  | (c, ps) :: l => legal (snd cl) ps /\ careful (length (conds (fst cl))) (pick (snd cl) ps) c /\
      match do_call cl c ps with Some cl' => all_careful l cl' | None => False end
  end.
Fixpoint played (l : list (call * list nat)) (cl : client) : client :=
  match l with [] => cl | (c, ps) :: l => match do_call cl c ps with Some cl' => played l cl' | None => cl end end.
Lemma careful_history l : forall cl, history cl -> all_careful l cl -> history (played l cl).
Proof.
  induction l as [|[c ps] l IH]; intros cl H A; [exact H|]. cbn [all_careful played] in *. destruct A as (L & C & A). destruct (do_call cl c ps) as [cl'|] eqn:E; [|destruct A].
  apply IH; [|exact A]. exact (history_call cl c ps cl' H L C E).
Qed.
(** Two registers; h, a conditioned x, a measurement. *)
Definition calls : list (call * list nat) :=
  [(CRegister 1, []); (CGate UH, [0]); (CRegister 2, []); (CConditionWith, [0]); (CGate UX, [0]); (CDissolve, []); (CMeasure, [0])].
Example C85_example : exists cl, history cl /\ snd cl = [[0]; [1; 2]] /\ length (pipeline (bld (fst cl))) = 4 /\
  (forall r v, In (r, v) [([1; 2], 3)] -> in_range (bn (bld (fst cl))) r) /\ NoDup (concat (map fst [([1; 2], 3)])).
Proof.
  exists (played calls start). split.
  - apply careful_history; [constructor|]. unfold calls. cbn [all_careful].
    repeat match goal with |- context[do_call ?a ?b ?c] => let v := eval vm_compute in (do_call a b c) in progress change (do_call a b c) with v; cbv iota beta end.
    unfold legal, careful, fits. cbn.
    repeat match goal with
      | |- _ /\ _ => split
      | |- NoDup [] => constructor
      | |- NoDup (_ :: _) => constructor; [cbn; intuition lia|]
      | |- True => exact I
      | |- _ => intros; intuition (discriminate || lia)
      end.
  - split; [reflexivity|]. split; [reflexivity|]. split; [|repeat constructor; cbn; intuition lia]. intros r v [E|[]]. inversion E; subst. change (bn (bld (fst (played calls start)))) with 3. intros q. cbn. intuition lia.
Qed.

(** Calls that return normally and leave a circuit that cannot be simulated: h on two qubits under
    a condition, a rotation of two qubits, toffoli with two controls and two targets under a condition. *)
Definition bad_h : list (call * list nat) := [(CRegister 2, []); (CRegister 1, []); (CConditionWith, [1]); (CGate UH, [0])].
Definition bad_rz : list (call * list nat) := [(CRegister 2, []); (CRzPiBy 2%Z, [0])].
Definition bad_toffoli : list (call * list nat) := [(CRegister 2, []); (CRegister 2, []); (CRegister 1, []); (CConditionWith, [2]); (CToffoli, [0; 1])].
Definition misfit (e : list nat * cobj) : bool :=
  match co_obj (snd e) with OUnit UH | OUnit (URz _) => negb (length (fst e) =? 1) | _ => false end.
Lemma misfit_not p : existsb misfit p = true -> ~ Forall suits p.
Proof.
  intros H F. apply existsb_exists in H. destruct H as ([qs [k o]] & Hin & M). rewrite Forall_forall in F. specialize (F _ Hin). unfold misfit, suits in *. cbn [co_obj fst snd] in *.
  destruct o as [u|m]; [|discriminate]. destruct u; try discriminate; cbn [wf_unitary] in F; rewrite F in M; discriminate.
Qed.
Theorem C85_simulation_panics_refuted : forall l, In l [bad_h; bad_rz; bad_toffoli] ->
  exists cl, play l start = Some cl /\ reach distinct_positions start cl /\ forall draws, exists p, calculate_state (bld (fst cl)) draws = Panic p.
Proof.
  intros l Hl. assert (X : option_map (fun cl : client => existsb misfit (pipeline (bld (fst cl)))) (play l start) = Some true /\ Forall (fun c => distinct_positions (fst c)) l).
  { cbn [In] in Hl. destruct Hl as [<-|[<-|[<-|[]]]]; (split; [vm_compute; reflexivity|repeat constructor]). }
  destruct X as (X & O). destruct (play l start) as [cl|] eqn:E; [|discriminate]. cbn [option_map] in X. injection X as X. apply misfit_not in X.
  exists cl. split; [reflexivity|]. assert (R : reach distinct_positions start cl) by (apply (play_reach _ l); assumption). split; [exact R|].
  intros draws. destruct (C85_exactly cl [] draws R) as [(_ & S)|(P & _)]; [intros ? ? []|constructor|destruct (X S)|exact P].
Qed.
Print Assumptions C85_simulation_panics_refuted.
