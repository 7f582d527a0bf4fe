(** C95: what subcircuits and their inverses cost. *)
From Coq Require Import Reals.
From Verif Require Import Base BuilderModel DenSpec RunSpec CondProofs SubSpec CostSpec CostProofs CostProofs3 CostProofs4 PropCost.
Local Open Scope nat_scope.

(** A circuit recorded on [n] qubits, applied to a register of at most [n] qubits: the missing
    qubits are temporaries, and every object is appended once. *)
Theorem C95_subcircuit_cost : forall n r sc s, conds s = [] -> length r <= n -> Forall (sized_entry n) sc -> (exists e, In e sc /\ In (n - 1) (fst e)) ->
  tidy s -> live s r -> r <> [] ->
  exists s', apply_subcircuit 0 sc r s = Ret r s' /\ conds s' = conds s /\ uses (n - length r) (length sc) s s'.
Proof.
  intros n r sc s HC Hk W Top T Lv Hr. destruct (sub_costs n r sc s HC Hk W Top T Lv Hr) as (s' & E & C & _ & _ & U). exists s'. auto.
Qed.
Print Assumptions C95_subcircuit_cost.

(** The same under conditions at every depth, [c] condition qubits in all: the temporaries that
    stand in for missing qubits are held throughout, those of the single objects one after
    the other; every object pays for its conditions anew. *)
Theorem C95_conditioned_subcircuit_cost : forall d n r sc s, 0 < d -> wrapped d (conds s) -> tidy s -> live s (cqs d (conds s) ++ r) -> r <> [] ->
  length r <= n -> Forall (wf_entry n) sc -> (exists e, In e sc /\ In (n - 1) (fst e)) -> Forall kept sc ->
  let c := length (cqs d (conds s)) in
  exists s', apply_subcircuit d sc r s = Ret r s' /\ conds s' = conds s /\
    uses (n - length r + peak (map (under_temps c) sc)) (total (map (under_objects c) sc)) s s'.
Proof.
  intros d n r sc s Hd W T Lv Hr Hk Wf Top F c.
  apply (sub_depth_costs sc r (fun c => n - length r + peak (map (under_temps c) sc)) (fun c => total (map (under_objects c) sc))); try assumption.
  intros s0 cr Hc T0 L0. apply local_kept_costs; assumption.
Qed.
Print Assumptions C95_conditioned_subcircuit_cost.

(** Inverting [k] times in a row: S gains an object each time, T becomes a triangular number of
    objects, nothing else grows. *)
Theorem C95_inverse_size : forall k sc sc', invert_times k sc = Ok sc' -> length sc' = total (map (inverse_objects k) sc).
Proof. exact invert_times_length. Qed.
Print Assumptions C95_inverse_size.
(** In particular an inverse is at most three times as long, and as long only if there is no S
    and no T. *)
Theorem C95_inverse_bound : forall sc sc', invert_subcircuit sc = Ok sc' ->
  length sc <= length sc' <= 3 * length sc /\
  (length sc' = length sc <-> forall e, In e sc -> co_obj (snd e) <> OUnit US /\ co_obj (snd e) <> OUnit UT).
Proof.
  intros sc sc' E. assert (E1 : invert_times 1 sc = Ok sc') by (cbn [invert_times]; rewrite E; reflexivity).
  rewrite (invert_times_length 1 sc sc' E1). clear. induction sc as [|e sc (IH1 & IH2)].
  - cbn. split; [lia|]. split; [intros _ e []|reflexivity].
  - assert (Ie : inverse_objects 1 e = 1 /\ (co_obj (snd e) <> OUnit US /\ co_obj (snd e) <> OUnit UT) \/ 1 < inverse_objects 1 e <= 3 /\ (co_obj (snd e) = OUnit US \/ co_obj (snd e) = OUnit UT)).
    { unfold inverse_objects. destruct (co_obj (snd e)) as [u|]; [|left; split; [reflexivity|split; discriminate]].
      destruct u; cbn; try (left; split; [reflexivity|split; discriminate]); right; (split; [lia|auto]). }
    unfold total in *. cbn [map length fold_right]. split; [destruct Ie as [(-> & _)|(? & _)]; lia|]. split.
    + intros X. assert (Y : fold_right Nat.add 0 (map (inverse_objects 1) sc) = length sc /\ inverse_objects 1 e = 1) by (destruct Ie as [(? & _)|(? & _)]; lia).
      intros e' [<-|He]; [|apply (proj1 IH2 (proj1 Y)); exact He]. destruct Ie as [(_ & N)|(? & _)]; [exact N|lia].
    + intros X. rewrite (proj2 IH2); [|intros e' He; apply X; right; exact He]. specialize (X e (or_introl eq_refl)). destruct Ie as [(-> & _)|(_ & [Y|Y])]; [reflexivity|tauto|tauto].
Qed.
Print Assumptions C95_inverse_bound.

(** A three-object circuit on two qubits. *)
Definition demo_sc : pipe := [([0], mkCO 1 (OUnit UH)); ([0; 1], mkCO 2 (OUnit UCNOT)); ([1], mkCO 1 (OUnit UT))].
Lemma demo_wf : Forall (wf_entry 2) demo_sc /\ Forall (sized_entry 2) demo_sc /\ Forall kept demo_sc /\ exists e, In e demo_sc /\ In (2 - 1) (fst e).
Proof.
  split; [|split; [|split]].
  - repeat (constructor; [split; [repeat constructor; cbn; intuition discriminate|split; [intros q Hq; cbn in Hq; lia|reflexivity]]|]). constructor.
  - repeat (constructor; [split; [repeat constructor; cbn; intuition discriminate|split; [intros q Hq; cbn in Hq; lia|split; [discriminate|reflexivity]]]|]). constructor.
  - repeat (constructor; [exact I|]). constructor.
  - exists ([1], mkCO 1 (OUnit UT)). split; [right; right; left; reflexivity|left; reflexivity].
Qed.
(** On one qubit of five, under two conditions: one temporary for the missing qubit, two for T;
    12 + 21 for H, 63 for CNOT, 2 * 63 + 1 for T. *)
Example C95_conditioned_demo : exists s', apply_subcircuit 2 demo_sc [4] (mkSt (bld five) [Some [0]; Some [1]]) = Ret [4] s' /\
  bn (bld s') = 8 /\ spare s' = 3 /\ length (pipeline (bld s')) = 33 + 63 + 127.
Proof.
  destruct C93_conditioned_s_fits as (W & T & Lv). destruct demo_wf as (Wf & _ & F & Top).
  destruct (C95_conditioned_subcircuit_cost 2 2 [4] demo_sc (mkSt (bld five) [Some [0]; Some [1]]) ltac:(lia) W T Lv ltac:(discriminate) ltac:(cbn; lia) Wf Top F) as (s' & E & _ & U).
  exists s'. split; [exact E|]. exact U.
Qed.
Example C95_conditioned_demo_runs : exists s', apply_subcircuit 2 demo_sc [4] (mkSt (bld five) [Some [0]; Some [1]]) = Ret [4] s' /\
  bn (bld s') = 8 /\ spare s' = 3 /\ length (pipeline (bld s')) = 33 + 63 + 127.
Proof. eexists. split; [vm_compute; reflexivity|]. repeat split. Qed.
(** Plain: one temporary, three objects. *)
Example C95_plain_demo : exists s', apply_subcircuit 0 demo_sc [4] five = Ret [4] s' /\ bn (bld s') = 6 /\ spare s' = 1 /\ length (pipeline (bld s')) = 3.
Proof. eexists. split; [vm_compute; reflexivity|]. repeat split. Qed.
Example C95_inverse_demo : exists p q, invert_times 1 demo_sc = Ok p /\ invert_times 2 demo_sc = Ok q /\ length p = 5 /\ length q = 8.
Proof. do 2 eexists. split; [reflexivity|]. split; [reflexivity|]. split; reflexivity. Qed.
